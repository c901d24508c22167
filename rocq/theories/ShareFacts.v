(** C58: every function called is in the module, and does there what it does alone. *)
From Verif Require Import Base Types Transcode Gen Spec Api Plan Schema Ends Claims MemFacts Round Space Other CoreFacts Handlers MainVar
  IR IRFacts IRRun Sizing ApiOps OpsFacts Share.
Require Import Lia Arith.

(** ** Equal keys *)
Lemma list_eqb_eq : forall A (f : A -> A -> bool), (forall a b, f a b = true <-> a = b) ->
  forall l l', list_eqb f l l' = true <-> l = l'.
Proof.
  intros A f F. induction l as [|x l IH]; intros [|y l']; cbn [list_eqb]; try (split; [discriminate|discriminate]); try tauto.
  rewrite Bool.andb_true_iff, F, IH. split; [intros [-> ->]; auto|intro E; injection E; auto].
Qed.
Lemma path_eqb_eq : forall p q, path_eqb p q = true <-> p = q.
Proof. apply list_eqb_eq, String.eqb_eq. Qed.
Lemma sign_eqb_eq : forall a b, sign_eqb a b = true <-> a = b.
Proof. intros [] []; cbn; split; congruence. Qed.
Lemma mode_eqb_eq : forall a b, mode_eqb a b = true <-> a = b.
Proof. intros [] []; cbn; split; congruence. Qed.
Lemma attr_eqb_eq : forall a b, attr_eqb a b = true <-> a = b.
Proof.
  intros [x|i n p] [y|i' n' p']; cbn [attr_eqb]; try (split; discriminate).
  - rewrite Bool.eqb_true_iff. split; congruence.
  - rewrite !Bool.andb_true_iff, Bool.eqb_true_iff, Z.eqb_eq, path_eqb_eq.
    split; [intros [[-> ->] ->]; auto|intro E; injection E; auto].
Qed.
Lemma vec_eqb_eq : forall p q, vec_eqb p q = true <-> p = q.
Proof.
  intros [] []. unfold vec_eqb. cbn. rewrite !Bool.andb_true_iff, !Z.eqb_eq, mode_eqb_eq.
  split; [intro H; decompose [and] H; subst; auto|intro E; injection E; intros; subst; tauto].
Qed.
Lemma var_eqb_eq : forall p q, var_eqb p q = true <-> p = q.
Proof.
  intros [] []. unfold var_eqb. cbn. rewrite !Bool.andb_true_iff, !Z.eqb_eq, Bool.eqb_true_iff, Nat.eqb_eq.
  split; [intro H; decompose [and] H; subst; auto|intro E; injection E; intros; subst; tauto].
Qed.
Lemma ty_eqb_eq : forall a b, ty_eqb a b = true <-> a = b.
Proof.
  induction a as [w al sg|w al| |fs size al IH|x ts IH|e len esz al IH|e p IH] using ty_ind2; intros [];
    cbn [ty_eqb]; try (split; discriminate); try tauto;
    rewrite ?Bool.andb_true_iff, ?Z.eqb_eq, ?sign_eqb_eq, ?IH, ?vec_eqb_eq, ?var_eqb_eq.
  - split; [intros [[-> ->] ->]; auto|intro E; injection E; auto].
  - split; [intros [-> ->]; auto|intro E; injection E; auto].
  - match goal with |- ((?g fs fs0 = true /\ _) /\ _) <-> _ => assert (G : g fs fs0 = true <-> fs = fs0) end.
    { clear - IH. revert fs0. induction IH as [|[n t o] l Ht IH IHl]; intros [|[n' t' o'] l']; try (split; [discriminate|discriminate]); try tauto.
      cbn [f_name f_ty f_off] in *. rewrite !Bool.andb_true_iff, String.eqb_eq, Z.eqb_eq, Ht, IHl.
      split; [intros [[[-> ->] ->] ->]; auto|intro E; injection E; intros; subst; tauto]. }
    rewrite G. split; [intros [[-> ->] ->]; auto|intro E; injection E; auto].
  - match goal with |- (_ /\ ?g ts ts0 = true) <-> _ => assert (G : g ts ts0 = true <-> ts = ts0) end.
    { clear - IH. revert ts0. induction IH as [|[n t g a] l Ht IH IHl]; intros [|[n' t' g' a'] l']; try (split; [discriminate|discriminate]); try tauto.
      cbn [t_name t_ty t_tag t_attrs] in *.
      rewrite !Bool.andb_true_iff, String.eqb_eq, Z.eqb_eq, Ht, IHl, (list_eqb_eq _ _ attr_eqb_eq).
      split; [intros [[[[-> ->] ->] ->] ->]; auto|intro E; injection E; intros; subst; tauto]. }
    rewrite G. split; [intros [-> ->]; auto|intro E; injection E; auto].
  - split; [intros [[[-> ->] ->] ->]; auto|intro E; injection E; auto].
  - split; [intros [-> ->]; auto|intro E; injection E; auto].
Qed.
Lemma kind_eqb_eq : forall a b, kind_eqb a b = true <-> a = b.
Proof.
  intros [| |r] [| |r']; cbn [kind_eqb]; try (split; congruence). rewrite Bool.eqb_true_iff. split; congruence.
Qed.
Lemma handler_eqb_eq : forall a b, handler_eqb a b = true <-> a = b.
Proof.
  intros [p i] [q j]. unfold handler_eqb. cbn [fst snd]. rewrite Bool.andb_true_iff, path_eqb_eq, Z.eqb_eq.
  split; [intros [-> ->]; auto|intro E; injection E; auto].
Qed.
Lemma key_eqb_eq : forall a b, key_eqb a b = true <-> a = b.
Proof.
  intros [k [s t p h]] [k' [s' t' p' h']]. unfold key_eqb. cbn [fst snd k_src k_dst k_path k_handlers].
  rewrite !Bool.andb_true_iff, !ty_eqb_eq, path_eqb_eq, (list_eqb_eq _ _ handler_eqb_eq), kind_eqb_eq.
  split; [intros [[[[-> ->] ->] ->] ->]; auto|intro E; injection E; intros; subst; tauto].
Qed.

Lemma find_fn_some : forall M key f, find_fn M key = Some f -> In (key, f) M.
Proof.
  intros M key f. unfold find_fn. destruct (find _ M) as [[k' f']|] eqn:E; [|discriminate].
  intro H. injection H as ->. apply find_some in E. destruct E as [I Q]. cbn [fst] in Q.
  apply key_eqb_eq in Q. now subst.
Qed.
Lemma find_fn_in : forall M key f, In (key, f) M -> exists f', find_fn M key = Some f'.
Proof.
  intros M key f I. unfold find_fn. destruct (find _ M) as [[k' f']|] eqn:E; [eauto|].
  pose proof (find_none _ _ E _ I) as N. cbn [fst] in N.
  assert (key_eqb key key = true) by now apply key_eqb_eq. congruence.
Qed.

(** ** Code runs the same if the functions it calls do *)
Section stmt_ind2.
  Variable P : stmt -> Prop.
  Hypothesis HLet : forall x o, P (Let x o).
  Hypothesis HDo : forall o, P (Do o).
  Hypothesis HIf : forall x c th tr el er, Forall P th -> Forall P el -> P (If x c th tr el er).
  Hypothesis HFor : forall x lo hi idx acc init body yield, Forall P body -> P (For x lo hi idx acc init body yield).
  Hypothesis HEach : forall lo hi idx body, Forall P body -> P (Each lo hi idx body).
  Fixpoint stmt_ind2 (s : stmt) : P s :=
    let go := fix go (l : code) : Forall P l :=
      match l with [] => Forall_nil _ | t :: r => Forall_cons t (stmt_ind2 t) (go r) end in
    match s with
    | Let x o => HLet x o
    | Do o => HDo o
    | If x c th tr el er => HIf x c th tr el er (go th) (go el)
    | For x lo hi idx acc init body yield => HFor x lo hi idx acc init body yield (go body)
    | Each lo hi idx body => HEach lo hi idx body (go body)
    end.
End stmt_ind2.

Section EXT.
Variable fconv : Z -> Z -> Z -> Z.
Variables k ke kr : kind.
Variables c1 c2 : fnkey -> Z -> Z -> st -> res.
Definition alike (l : list fnkey) : Prop := forall key a d s, In key l -> c1 key a d s = c2 key a d s.

Lemma for_rounds_ext : forall (b1 b2 : env -> mem -> option Z -> xres) idx acc yield,
  (forall e m cb, b1 e m cb = b2 e m cb) ->
  forall n i v e m cb fin, for_rounds b1 idx acc yield n i v e m cb fin = for_rounds b2 idx acc yield n i v e m cb fin.
Proof.
  intros b1 b2 idx acc yield B. induction n as [|n IH]; intros; auto. cbn [for_rounds]. rewrite B.
  destruct (b2 _ _ _); auto. destruct (e0 yield); auto.
Qed.
Lemma each_rounds_ext : forall (b1 b2 : env -> mem -> option Z -> xres) idx,
  (forall e m cb, b1 e m cb = b2 e m cb) ->
  forall n i e m cb, each_rounds b1 idx n i e m cb = each_rounds b2 idx n i e m cb.
Proof.
  intros b1 b2 idx B. induction n as [|n IH]; intros; auto. cbn [each_rounds]. rewrite B.
  destruct (b2 _ _ _); auto.
Qed.

Notation X1 := (exec fconv k ke kr c1).
Notation X2 := (exec fconv k ke kr c2).
Lemma code_ext : forall l, Forall (fun s => alike (callees s) -> forall e m cb, X1 s e m cb = X2 s e m cb) l ->
  alike (flat_map callees l) -> forall e m cb,
  (fix run (l : code) (e : env) (m : mem) (cb : option Z) : xres :=
      match l with
      | [] => XOk e m cb
      | t :: r => match X1 t e m cb with XOk e' m' cb' => run r e' m' cb' | z => z end
      end) l e m cb =
  (fix run (l : code) (e : env) (m : mem) (cb : option Z) : xres :=
      match l with
      | [] => XOk e m cb
      | t :: r => match X2 t e m cb with XOk e' m' cb' => run r e' m' cb' | z => z end
      end) l e m cb.
Proof.
  intros l F. induction F as [|t l Ht F IH]; intros A e m cb; auto.
  assert (A1 : alike (callees t)) by (intros key a d s I; apply A; cbn [flat_map]; apply in_or_app; auto).
  assert (A2 : alike (flat_map callees l)) by (intros key a d s I; apply A; cbn [flat_map]; apply in_or_app; auto).
  rewrite (Ht A1). destruct (X2 t e m cb); auto.
Qed.
Lemma exec_ext : forall s, alike (callees s) -> forall e m cb, X1 s e m cb = X2 s e m cb.
Proof.
  induction s as [x o|o|x c th tr el er IH1 IH2|x lo hi idx acc init body yield IH|lo hi idx body IH] using stmt_ind2; intros A e m cb.
  - cbn [exec]. destruct o; try reflexivity; cbn [exec_op]; unfold addr, buff.
    + destruct (e src) as [[]|]; auto. destruct (e dst) as [[]|]; auto. destruct (e buf) as [[]|]; auto.
      rewrite A; [auto|now left].
    + destruct (e src) as [[]|]; auto. destruct (e buf) as [[]|]; auto.
      rewrite A; [auto|now left].
  - reflexivity.
  - cbn [callees] in A. cbn [exec]. unfold bit. destruct (e c) as [[| b | |]|]; auto.
    destruct b; rewrite code_ext; auto; intros key a d s I; apply A, in_or_app; auto.
  - cbn [callees] in A. cbn [exec]. unfold ind. destruct (e lo) as [[]|]; auto. destruct (e hi) as [[]|]; auto.
    destruct (e init); auto. apply for_rounds_ext. intros. now apply code_ext.
  - cbn [callees] in A. cbn [exec]. unfold ind. destruct (e lo) as [[]|]; auto. destruct (e hi) as [[]|]; auto.
    apply each_rounds_ext. intros. now apply code_ext.
Qed.
Lemma run_block_ext : forall b, alike (block_callees b) -> forall e m cb,
  run_block fconv k ke kr c1 b e m cb = run_block fconv k ke kr c2 b e m cb.
Proof.
  intros [l v] A e m cb. unfold run_block, block_callees in *. cbn [fst snd] in *.
  assert (E : exec_code fconv k ke kr c1 l e m cb = exec_code fconv k ke kr c2 l e m cb).
  { revert e m cb. induction l as [|t l IH]; intros; auto. cbn [exec_code].
    rewrite exec_ext by (intros key a d s I; apply A; cbn [flat_map]; apply in_or_app; auto).
    destruct (X2 t e m cb); auto. apply IH. intros key a d s I; apply A; cbn [flat_map]; apply in_or_app; auto. }
  now rewrite E.
Qed.
Lemma run_body_ext : forall f, alike (fn_callees f) -> forall a d s,
  run_body fconv k ke kr c1 f a d s = run_body fconv k ke kr c2 f a d s.
Proof.
  intros [b|v sx sts df cs] A a d s; unfold run_body; cbn [fn_callees] in A.
  - now apply run_block_ext.
  - assert (D : forall e m cb, run_block fconv k ke kr c1 df e m cb = run_block fconv k ke kr c2 df e m cb)
      by (apply run_block_ext; intros key a0 d0 s0 I; apply A, in_or_app; auto).
    destruct cs as [|b0 cs]; [apply D|].
    destruct (args a d s v) as [[]|]; auto. destruct (load _ _ _) as [g|]; auto.
    destruct (find _ _) as [[t b]|] eqn:F; [|apply D].
    apply run_block_ext. intros key a1 d0 s0 I. apply A, in_or_app. right. apply in_flat_map.
    exists b. split; auto. apply find_some in F. destruct F as [F _]. now apply in_combine_r in F.
Qed.
End EXT.

(** ** What the functions made call *)
Notation calls o := (flat_map callees o).
Lemma calls_app : forall o o', calls (o ++ o') = calls o ++ calls o'.
Proof. intros. apply flat_map_app. Qed.
Lemma default_calls : forall n t hs vd vb o n' c, emit_default n t hs vd vb = (o, n') -> In c (calls o) -> k_dst c = t.
Proof.
  intros n t hs vd vb o n' c E I. destruct t; cbn in E; injection E as <- <-; cbn in I; try easy;
    destruct I as [<-|[]]; reflexivity.
Qed.
Lemma transcode_calls : forall n src dst p hs vs vd vb o v n' c,
  emit_transcode n src dst p hs vs vd vb = (o, v, n') -> In c (calls o) -> k_dst c = dst.
Proof.
  intros n src dst p hs vs vd vb o v n' c E I. unfold emit_transcode in E.
  assert (D : dst = TUnit \/ dst <> TUnit) by (destruct dst; auto; right; discriminate).
  destruct D as [->|D]; [injection E as <- <- <-; easy|].
  destruct src;
    try (destruct (emit_default n dst hs vd vb) as [o' n0] eqn:ED;
         assert (E' : o' = o) by (destruct dst; congruence); subst o'; exact (default_calls _ _ _ _ _ _ _ _ ED I));
    destruct dst; try congruence; try (injection E as <- <- <-; cbn in I; try easy; destruct I as [<-|[]]; reflexivity).
  destruct (use_copytag _ _ _ _); injection E as <- <- <-; cbn in I; try easy; destruct I as [<-|[]]; reflexivity.
Qed.
Lemma fields_calls : forall sfs l n p hs vb o v n' c,
  emit_fields n sfs l p hs vb = (o, v, n') -> In c (calls o) -> exists f, In f l /\ k_dst c = f_ty f.
Proof.
  intros sfs. induction l as [|f l IH]; intros n p hs vb o v n' c E I; cbn [emit_fields] in E.
  - injection E as <- <- <-. easy.
  - destruct (last_field (f_name f) sfs) as [sf|].
    + destruct (emit_transcode _ _ _ _ _ _ _ _) as [[o1 vb'] n1] eqn:E1.
      destruct (emit_fields n1 _ _ _ _ _) as [[o2 vb''] n2] eqn:E2. injection E as <- <- <-.
      cbn [flat_map callees app] in I. rewrite calls_app in I. apply in_app_or in I. destruct I as [I|I].
      * exists f. split; [now left|]. eapply transcode_calls; eauto.
      * destruct (IH _ _ _ _ _ _ _ _ E2 I) as (g & G & Q). exists g. split; [now right|auto].
    + destruct (emit_default _ _ _ _ _) as [o1 n1] eqn:E1.
      destruct (emit_fields n1 _ _ _ _ _) as [[o2 vb''] n2] eqn:E2. injection E as <- <- <-.
      cbn [flat_map callees app] in I. rewrite calls_app in I. apply in_app_or in I. destruct I as [I|I].
      * exists f. split; [now left|]. eapply default_calls; eauto.
      * destruct (IH _ _ _ _ _ _ _ _ E2 I) as (g & G & Q). exists g. split; [now right|auto].
Qed.
Lemma outline_first_in : forall A (t : A -> bool) l x, In x (outline_first t l) -> In x l.
Proof.
  intros A t l x I. unfold outline_first in I. destruct (rev (filter t l)) as [|o r] eqn:E; auto.
  destruct I as [<-|I].
  - assert (J : In o (rev (filter t l))) by (rewrite E; now left). apply in_rev in J. apply filter_In in J. tauto.
  - apply filter_In in I. tauto.
Qed.
Lemma struct_calls : forall sfs fs size p hs c, In c (fn_callees (struct_fn sfs fs size p hs)) ->
  exists f, In f fs /\ k_dst c = f_ty f.
Proof.
  intros sfs fs size p hs c I. unfold struct_fn in I. destruct (emit_fields _ _ _ _ _ _) as [[o v] n] eqn:E.
  cbn in I. destruct (fields_calls _ _ _ _ _ _ _ _ _ _ E I) as (f & F & Q).
  exists f. split; auto. eapply outline_first_in; eauto.
Qed.
Lemma proj_calls : forall p n t v o v' n' t', emit_proj n t p v = Some (o, v', n', t') -> calls o = [].
Proof.
  induction p as [|x p IH]; intros n t v o v' n' t' E; [discriminate|]. cbn [emit_proj] in E.
  destruct p as [|y p]; [injection E as <- <- <- <-; reflexivity|].
  destruct t; try discriminate. destruct (find_field _ _) as [f|]; [|discriminate].
  destruct (emit_proj _ _ _ _) as [[[[o1 v1] n1] t1]|] eqn:E1; [|discriminate]. injection E as <- <- <- <-.
  cbn [flat_map callees app]. eapply IH; eauto.
Qed.
Lemma attrs_calls : forall l n t v c o c' n', emit_attrs n t v c l = Some (o, c', n') -> calls o = [].
Proof.
  induction l as [|[b|i len p] l IH]; intros n t v c o c' n' E; cbn [emit_attrs] in E.
  - injection E as <- <- <-. reflexivity.
  - destruct (emit_attrs _ _ _ _ _) as [[[o1 c1] n1]|] eqn:E1; [|discriminate]. injection E as <- <- <-.
    cbn [flat_map callees app]. eapply IH; eauto.
  - destruct (emit_proj _ _ _ _) as [[[[o1 v1] n1] t1]|] eqn:E1; [|discriminate]. destruct t1; try discriminate.
    destruct (emit_attrs _ _ _ _ _) as [[[o2 c2] n2]|] eqn:E2; [|discriminate]. injection E as <- <- <-.
    rewrite calls_app, (proj_calls _ _ _ _ _ _ _ _ E1). cbn [flat_map callees app]. eapply IH; eauto.
Qed.
Lemma cond_calls : forall n t v l o c n', emit_cond n t v l = (o, c, n') -> calls o = [].
Proof.
  intros n t v l o c n' E. unfold emit_cond in E. destruct (emit_attrs _ _ _ _ _) as [[[o1 c1] n1]|] eqn:E1;
    injection E as <- <- <-; [|reflexivity]. cbn [flat_map callees app]. eapply attrs_calls; eauto.
Qed.
Lemma terms_calls : forall x sty l n vs vb o v n' c,
  emit_terms n x sty l vs vb = (o, v, n') -> In c (calls o) -> exists t, In t l /\ k_dst c = t_ty t.
Proof.
  intros x sty. induction l as [|t l IH]; intros n vs vb o v n' c E I; cbn [emit_terms] in E.
  - injection E as <- <- <-. easy.
  - destruct (emit_cond _ _ _ _) as [[oc c0] n1] eqn:E0.
    destruct (emit_transcode _ _ _ _ _ _ _ _) as [[ot vt] n2] eqn:E1.
    destruct (emit_terms n2 _ _ _ _ _) as [[oe ve] n3] eqn:E2. injection E as <- <- <-.
    rewrite calls_app, (cond_calls _ _ _ _ _ _ _ E0) in I. cbn [flat_map callees app] in I.
    rewrite app_nil_r, calls_app in I. apply in_app_or in I. destruct I as [I|I].
    + exists t. split; [now left|]. apply in_app_or in I. destruct I as [I|I].
      * destruct (x_outline x); cbn in I; easy.
      * eapply transcode_calls; eauto.
    + destruct (IH _ _ _ _ _ _ _ E2 I) as (g & G & Q). exists g. split; [now right|auto].
Qed.
Lemma term_calls : forall n soff x sty l hs b n' c, emit_term n soff x sty l hs = (b, n') ->
  In c (block_callees b) -> exists t, In t l /\ k_dst c = t_ty t.
Proof.
  intros n soff x sty l hs b n' c E I. unfold emit_term in E. destruct (emit_terms _ _ _ _ _ _) as [[o v] n1] eqn:E1.
  injection E as <- <-. unfold block_callees in I. cbn [fst flat_map callees app] in I. rewrite calls_app in I.
  apply in_app_or in I. destruct I as [I|I]; [eapply terms_calls; eauto|].
  destruct l as [|t l]; [easy|]. destruct (find_handler _ _); easy.
Qed.
Lemma cases_calls : forall soff x hs l n c, In c (flat_map block_callees (emit_cases n soff x l hs)) ->
  exists sty ts t, In (sty, ts) l /\ In t ts /\ k_dst c = t_ty t.
Proof.
  intros soff x hs. induction l as [|[sty ts] l IH]; intros n c I; [easy|]. cbn [emit_cases] in I.
  destruct (emit_term _ _ _ _ _ _) as [b n'] eqn:E. cbn [flat_map] in I. apply in_app_or in I. destruct I as [I|I].
  - destruct (term_calls _ _ _ _ _ _ _ _ _ E I) as (t & T & Q). exists sty, ts, t. split; [now left|auto].
  - destruct (IH _ _ I) as (s' & t' & t & A & B & C). exists s', t', t. split; [now right|auto].
Qed.
Lemma variant_calls : forall sx sts x ts p hs c, In c (fn_callees (variant_fn sx sts x ts p hs)) ->
  exists t, In t ts /\ k_dst c = t_ty t.
Proof.
  intros sx sts x ts p hs c I. unfold variant_fn in I. destruct (negb _); [easy|]. destruct p as [|nm p].
  - destruct (emit_term _ _ _ _ _ _) as [b n] eqn:E. cbn [fn_callees] in I. apply in_app_or in I. destruct I as [I|I].
    + destruct (term_calls _ _ _ _ _ _ _ _ _ E I) as (t & T & Q). exists t. split; auto. eapply default_for_in; eauto.
    + destruct (cases_calls _ _ _ _ _ _ I) as (sty & l & t & A & B & C). exists t. split; auto.
      apply in_map_iff in A. destruct A as (u & U & _). injection U as _ <-. eapply terms_for_in; eauto.
  - destruct (find_term _ _) as [t|]; [|easy]. cbn [fn_callees] in I.
    destruct (emit_term _ _ _ _ _ _) as [b n] eqn:E. cbn [fst] in I.
    destruct (term_calls _ _ _ _ _ _ _ _ _ E I) as (u & T & Q). exists u. split; auto. eapply terms_for_in; eauto.
Qed.
Lemma array_calls : forall se slen sesz e len esz c, In c (fn_callees (array_fn se slen sesz e len esz)) -> k_dst c = e.
Proof.
  intros se slen sesz e len esz c I. unfold array_fn in I.
  destruct (emit_transcode _ _ _ _ _ _ _ _) as [[o v] n] eqn:E1.
  destruct (emit_default _ _ _ _ _) as [o' n'] eqn:E2. cbn in I. rewrite app_nil_r in I.
  apply in_app_or in I. destruct I as [I|I]; [eapply transcode_calls; eauto|eapply default_calls; eauto].
Qed.
Lemma loop_calls : forall n se q r ss e p r' ds c0 out vb o v n' c,
  emit_loop n se q r ss e p r' ds c0 out vb = (o, v, n') -> In c (calls o) -> k_dst c = e.
Proof.
  intros n se q r ss e p r' ds c0 out vb o v n' c E I. unfold emit_loop in E.
  destruct (emit_transcode _ _ _ _ _ _ _ _) as [[o1 v1] n1] eqn:E1. injection E as <- <- <-.
  cbn in I. rewrite app_nil_r in I. eapply transcode_calls; eauto.
Qed.
Lemma is_inline_calls : forall n mn len, calls (emit_is_inline n mn len) = [].
Proof. intros n mn len. unfold emit_is_inline. destruct (mn =? 0); reflexivity. Qed.
Lemma inline_calls : forall n se q e p len o v n' c,
  emit_inline n se q e p len = (o, v, n') -> In c (calls o) -> k_dst c = e.
Proof.
  intros n se q e p len o v n' c E I. unfold emit_inline in E.
  destruct (emit_loop _ _ _ _ _ _ _ _ _ _ _ _) as [[l1 v1] n1] eqn:E1.
  destruct (emit_loop (6 + n1)%nat _ _ _ _ _ _ _ _ _ _ _) as [[l2 v2] n2] eqn:E2.
  destruct (emit_loop n2 _ _ _ _ _ _ _ _ _ _ _) as [[l3 v3] n3] eqn:E3. injection E as <- <- <-.
  cbn [flat_map callees app] in I. rewrite calls_app, is_inline_calls in I. cbn [flat_map callees app] in I.
  rewrite app_nil_r, calls_app in I.
  repeat (apply in_app_or in I; destruct I as [I|I]); (eapply loop_calls; [|exact I]; eassumption).
Qed.
Lemma outline_calls : forall n se q e p len o v n' c,
  emit_outline n se q e p len = (o, v, n') -> In c (calls o) -> k_dst c = e.
Proof.
  intros n se q e p len o v n' c E I. unfold emit_outline in E.
  destruct (emit_loop _ _ _ _ _ _ _ _ _ _ _ _) as [[l1 v1] n1] eqn:E1.
  destruct (emit_loop n1 _ _ _ _ _ _ _ _ _ _ _) as [[l2 v2] n2] eqn:E2.
  destruct (emit_loop (9 + n2)%nat _ _ _ _ _ _ _ _ _ _ _) as [[l3 v3] n3] eqn:E3.
  destruct (v_ppl q <=? v_ppl p).
  - destruct (emit_loop n3 _ _ _ _ _ _ _ _ _ _ _) as [[l4 v4] n4] eqn:E4.
    destruct (emit_loop n4 _ _ _ _ _ _ _ _ _ _ _) as [[l5 v5] n5] eqn:E5. injection E as <- <- <-.
    rewrite !calls_app, is_inline_calls in I. cbn [flat_map callees app] in I.
    rewrite app_nil_r, !calls_app in I.
    repeat (apply in_app_or in I; destruct I as [I|I]); try (eapply loop_calls; [|exact I]; eassumption).
    destruct (0 <? v_min q); easy.
  - destruct (emit_loop n3 _ _ _ _ _ _ _ _ _ _ _) as [[l4 v4] n4] eqn:E4.
    destruct (emit_loop n4 _ _ _ _ _ _ _ _ _ _ _) as [[l5 v5] n5] eqn:E5. injection E as <- <- <-.
    rewrite !calls_app, is_inline_calls in I. cbn [flat_map callees app] in I.
    rewrite app_nil_r, !calls_app in I.
    repeat (apply in_app_or in I; destruct I as [I|I]); try (eapply loop_calls; [|exact I]; eassumption).
    destruct (0 <? v_min q); easy.
Qed.
Lemma vector_calls : forall se q e p c, In c (fn_callees (vector_fn se q e p)) -> k_dst c = e.
Proof.
  intros se q e p c I. unfold vector_fn in I.
  destruct (emit_inline _ _ _ _ _ _) as [[l1 v1] n1] eqn:E1.
  destruct (emit_outline _ _ _ _ _ _) as [[l2 v2] n2] eqn:E2.
  unfold fn_callees, block_callees in I. cbn [fst flat_map callees app] in I. rewrite !calls_app in I.
  cbn [flat_map callees app] in I. rewrite calls_app, is_inline_calls in I. cbn [flat_map callees app] in I.
  rewrite app_nil_r in I. apply in_app_or in I. destruct I as [I|I].
  - destruct (v_max p <? 0); easy.
  - apply in_app_or in I. destruct I as [I|I]; [eapply inline_calls; eauto|eapply outline_calls; eauto].
Qed.

Lemma depth_field : forall fs size al f, In f fs -> (depth (f_ty f) < depth (TStruct fs size al))%nat.
Proof.
  intros fs size al f I. cbn [depth]. apply Nat.lt_succ_r. induction fs as [|g fs IH]; [easy|]. cbn [fold_right].
  destruct I as [->|I]; [|specialize (IH I)]; lia.
Qed.
Lemma depth_term : forall x ts t, In t ts -> (depth (t_ty t) < depth (TVar x ts))%nat.
Proof.
  intros x ts f I. cbn [depth]. apply Nat.lt_succ_r. induction ts as [|g ts IH]; [easy|]. cbn [fold_right].
  destruct I as [->|I]; [|specialize (IH I)]; lia.
Qed.
(** A function calls only functions for parts of its target. *)
Lemma gen_calls : forall key c, In c (fn_callees (gen_fn key)) -> (depth (k_dst c) < depth (k_dst key))%nat.
Proof.
  intros [src dst p hs] c I. unfold gen_fn in I. cbn [k_src k_dst k_path k_handlers] in *.
  destruct src, dst; try (cbn in I; easy);
    try (destruct (struct_calls _ _ _ _ _ _ I) as (f & F & ->); now apply depth_field);
    try (destruct (variant_calls _ _ _ _ _ _ _ I) as (f & F & ->); now apply depth_term);
    try (rewrite (array_calls _ _ _ _ _ _ _ I); cbn [depth]; lia);
    rewrite (vector_calls _ _ _ _ _ I); cbn [depth]; lia.
Qed.

(** ** The module *)
Definition made (M : module) : Prop := forall key f, In (key, f) M -> f = gen_fn (snd key).
Definition closed (M : module) (pend : list mkey) : Prop :=
  forall key f c, In (key, f) M -> In c (fn_callees f) -> In (fst key, c) (map fst M) \/ In (fst key, c) pend.

Lemma find_fn_none : forall M key, find_fn M key = None -> ~ In key (map fst M).
Proof.
  intros M key N I. apply in_map_iff in I. destruct I as ([k' f] & E & I). cbn [fst] in E. subst k'.
  destruct (find_fn_in _ _ _ I) as (f' & F). congruence.
Qed.
Lemma generate_inv : forall fuel pend M M', generate fuel pend M = Some M' ->
  NoDup (map fst M) -> made M -> closed M pend ->
  NoDup (map fst M') /\ made M' /\ closed M' [] /\
  forall key, In key pend \/ In key (map fst M) -> In key (map fst M').
Proof.
  induction fuel as [|fuel IH]; intros pend M M' E ND MD CL; [discriminate|]. cbn [generate] in E.
  destruct pend as [|key rest].
  - injection E as <-. repeat split; auto. intros key [[]|I]; auto.
  - destruct (find_fn M key) as [f|] eqn:L.
    + apply find_fn_some in L. assert (K : In key (map fst M)) by (apply (in_map fst) in L; auto).
      destruct (IH _ _ _ E ND MD) as (A & B & C & D).
      { intros k' f' c I J. destruct (CL _ _ _ I J) as [H|[<-|H]]; auto. }
      repeat split; auto. intros k' [[<-|I]|I]; apply D; auto.
    + apply find_fn_none in L. destruct (IH _ _ _ E) as (A & B & C & D).
      * cbn [map fst]. now constructor.
      * intros k' f' [H|H]; [injection H as <- <-; auto|eauto].
      * intros k' f' c [H|H] J; cbn [map fst].
        -- injection H as <- <-. right. apply in_or_app. left. now apply in_map.
        -- destruct (CL _ _ _ H J) as [Q|[<-|Q]]; [left; now right|left; now left|right; apply in_or_app; auto].
      * repeat split; auto. intros k' [[<-|I]|I]; apply D.
        -- right. now left.
        -- left. apply in_or_app. auto.
        -- right. now right.
Qed.

Lemma generate_app : forall N,
  (forall key rest M, (depth (k_dst (snd key)) < N)%nat ->
     exists n M1, forall m, generate (n + m) (key :: rest) M = generate m rest M1) ->
  forall l rest M, (forall key, In key l -> (depth (k_dst (snd key)) < N)%nat) ->
  exists n M1, forall m, generate (n + m) (l ++ rest) M = generate m rest M1.
Proof.
  intros N H. induction l as [|key l IH]; intros rest M L.
  - exists O, M. reflexivity.
  - destruct (H key (l ++ rest) M) as (n1 & M1 & E1); [apply L; now left|].
    destruct (IH rest M1) as (n2 & M2 & E2); [intros; apply L; now right|].
    exists (n1 + n2)%nat, M2. intro m. rewrite <- Nat.add_assoc, <- E2. apply E1.
Qed.
Lemma generate_one : forall N key rest M, (depth (k_dst (snd key)) < N)%nat ->
  exists n M1, forall m, generate (n + m) (key :: rest) M = generate m rest M1.
Proof.
  induction N as [|N IH]; intros key rest M L; [lia|].
  destruct (find_fn M key) as [f|] eqn:Q.
  - exists 1%nat, M. intro m. cbn [Nat.add generate]. now rewrite Q.
  - destruct (generate_app N IH (map (pair (fst key)) (fn_callees (gen_fn (snd key)))) rest
                ((key, gen_fn (snd key)) :: M)) as (n & M1 & E).
    { intros k' I. apply in_map_iff in I. destruct I as (c & <- & I). apply gen_calls in I. cbn [snd]. lia. }
    exists (S n), M1. intro m. cbn [Nat.add generate]. rewrite Q. apply E.
Qed.
Lemma generate_ends : forall pend M, exists n M', forall m, generate (n + m) pend M = Some M'.
Proof.
  intros pend M.
  destruct (generate_app (S (fold_right Nat.max O (map (fun key => depth (k_dst (snd key))) pend)))
              (generate_one _) pend [] M) as (n & M' & E).
  { intros key I. apply Nat.lt_succ_r. induction pend as [|k' l IH]; [easy|]. cbn [map fold_right].
    destruct I as [->|I]; [|specialize (IH I)]; lia. }
  exists (n + 1)%nat, M'. intro m. rewrite app_nil_r in E. rewrite <- Nat.add_assoc, E. reflexivity.
Qed.

Lemma run_mod_ok : forall fconv M, made M -> closed M [] ->
  forall n key a d s, In key (map fst M) ->
  run_mod fconv M n key a d s = run_fn fconv (fst key) (fst key) (fst key) gen_fn n (snd key) a d s.
Proof.
  intros fconv M MD CL. induction n as [|n IH]; intros key a d s I; auto. cbn [run_mod run_fn].
  apply in_map_iff in I. destruct I as ([k' f] & E & I). cbn [fst] in E. subst k'.
  destruct (find_fn_in _ _ _ I) as (f' & F). rewrite F. apply find_fn_some in F. pose proof (MD _ _ F) as Q.
  rewrite <- Q. apply run_body_ext. intros c a0 d0 s0 J. destruct (CL _ _ _ F J) as [H|[]].
  now rewrite IH.
Qed.

(** A request runs in the module as it does with all functions there are. *)
Lemma module_inv : forall fuel qs M, module_of fuel qs = Some M ->
  forallb request_gen qs = true /\ NoDup (map fst M) /\ made M /\ closed M [] /\
  forall q key, In q qs -> In key (request_keys q) -> In key (map fst M).
Proof.
  intros fuel qs M E. unfold module_of in E. destruct (forallb request_gen qs) eqn:G; [|discriminate].
  destruct (generate_inv _ _ _ _ E) as (A & B & C & D); [constructor|easy|easy|].
  repeat split; auto. intros q key I J. apply D. left. apply in_flat_map. eauto.
Qed.
Lemma request_ok : forall fconv fuel qs M q n a d s, module_of fuel qs = Some M -> In q qs ->
  wf (q_src q) = true -> wf (q_dst q) = true -> (depth (q_dst q) <= n)%nat ->
  run_request fconv M n q a d s = xc fconv (q_dst q) (q_kind q) (q_src q) (q_path q) (q_handlers q) a d s.
Proof.
  intros fconv fuel qs M [k src dst p hs] n a d s E I Ws W L.
  destruct (module_inv _ _ _ E) as (_ & _ & MD & CL & RQ). unfold run_request. cbn [q_kind q_src q_dst q_path q_handlers] in *.
  transitivity (run_body fconv k k k (run_fn fconv k k k gen_fn n) (FBlock (top_block src dst p hs)) a d s).
  - apply run_body_ext. intros c a0 d0 s0 J. cbn [fn_callees] in J.
    rewrite (run_mod_ok fconv M MD CL); [reflexivity|]. eapply RQ; [exact I|]. unfold request_keys. cbn [q_kind].
    now apply in_map.
  - exact (top_ok fconv k src dst p hs n a d s Ws W L).
Qed.

(** ** Size functions *)
Lemma convert_calls : forall r s, callees (convert r s) = callees s.
Proof.
  intro r. assert (L : forall l, Forall (fun s => callees (convert r s) = callees s) l -> flat_map callees (map (convert r) l) = flat_map callees l).
  { intros l F. induction F as [|s l E F IH]; auto. cbn [map flat_map]. now rewrite E, IH. }
  induction s as [x o|o|x c th tr el er IH1 IH2|x lo hi idx acc init body yield IH|lo hi idx body IH] using stmt_ind2;
    cbn [convert callees]; rewrite ?L by auto; auto.
  destruct o; try reflexivity. cbn [convert_op]. destruct (_ && _); reflexivity.
Qed.
Lemma convert_code_calls : forall r l, calls (map (convert r) l) = calls l.
Proof. intros r l. induction l as [|s l IH]; auto. cbn [map flat_map]. now rewrite convert_calls, IH. Qed.
Lemma sweep_calls : forall l s c, In c (calls (sweep l s)) -> In c (callees s).
Proof.
  intro l. assert (L : forall b, Forall (fun s => forall c, In c (calls (sweep l s)) -> In c (callees s)) b ->
    forall c, In c (calls (flat_map (sweep l) b)) -> In c (calls b)).
  { intros b F. induction F as [|s b E F IH]; intros c I; auto. cbn [flat_map] in *. rewrite calls_app in I.
    apply in_app_or in I. apply in_or_app. destruct I as [I|I]; auto. }
  induction s as [x o|o|x c0 th tr el er IH1 IH2|x lo hi idx acc init body yield IH|lo hi idx body IH] using stmt_ind2;
    intros c I; cbn [sweep] in I; try easy; destruct (has l x); try easy; cbn [flat_map callees] in *;
    rewrite app_nil_r in I; auto.
  apply in_app_or in I. apply in_or_app. destruct I as [I|I]; auto.
Qed.
Lemma sweep_code_calls : forall l b c, In c (calls (flat_map (sweep l) b)) -> In c (calls b).
Proof.
  intros l b c I. induction b as [|s b IH]; auto. cbn [flat_map] in *. rewrite calls_app in I.
  apply in_app_or in I. apply in_or_app. destruct I as [I|I]; auto. left. eapply sweep_calls; eauto.
Qed.
Lemma size_calls : forall r f c, In c (fn_callees (size_fn_of r f)) -> In c (fn_callees f).
Proof.
  intros r f c. unfold size_fn_of. generalize (fn_marks (on_blocks (convert_block r) f)) as l. intro l.
  assert (B : forall b, In c (block_callees (sweep_block l (convert_block r b))) -> In c (block_callees b)).
  { intros b I. unfold block_callees, sweep_block, convert_block in *. cbn [fst] in *.
    apply sweep_code_calls in I. now rewrite convert_code_calls in I. }
  destruct f as [b|v sx sts df cs]; cbn [on_blocks fn_callees]; auto.
  intro I. apply in_app_or in I. apply in_or_app. destruct I as [I|I]; auto. right.
  apply in_flat_map in I. destruct I as (b & J & I). apply in_map_iff in J. destruct J as (b' & <- & J).
  apply in_map_iff in J. destruct J as (b0 & <- & J). apply in_flat_map. exists b0. auto.
Qed.
Lemma run_size_ok : forall fconv M r tol, made M -> closed M [] ->
  forall n key a d s, In (KDummy false, key) (map fst M) ->
  run_size fconv M r tol n key a d s = run_fn fconv (KDummy false) KRaw (left_kind tol) (size_prog r) n key a d s.
Proof.
  intros fconv M r tol MD CL. induction n as [|n IH]; intros key a d s I; auto. cbn [run_size run_fn].
  apply in_map_iff in I. destruct I as ([k' f] & E & I). cbn [fst] in E. subst k'.
  destruct (find_fn_in _ _ _ I) as (f' & F). rewrite F. apply find_fn_some in F. pose proof (MD _ _ F) as Q.
  cbn [snd] in Q. unfold size_prog at 2. rewrite <- Q. apply run_body_ext. intros c a0 d0 s0 J. apply size_calls in J.
  destruct (CL _ _ _ F J) as [H|[]]. now apply IH.
Qed.
Lemma size_mod_ops : forall fconv fuel qs M tol n pr h p r obj m,
  module_of fuel qs = Some M -> In (size_request pr h p) qs ->
  size_mod fconv M tol n pr h p r obj m = size_ops fconv tol n pr h p r obj m.
Proof.
  intros fconv fuel qs M tol n pr h p r obj m E I. destruct (module_inv _ _ _ E) as (G & _ & MD & CL & RQ).
  unfold size_mod, size_ops, size_run. rewrite forallb_forall in G. specialize (G _ I).
  unfold request_gen in G. cbn [size_request q_kind q_src q_dst q_path q_handlers] in G. rewrite G.
  erewrite run_body_ext; [reflexivity|]. intros c a d s J. apply size_calls in J. cbn [fn_callees] in J.
  apply run_size_ok; auto. eapply RQ; [exact I|]. unfold request_keys. cbn [size_request q_kind]. now apply in_map.
Qed.

(** ** C58 *)
Lemma C58_module_proof : forall qs,
  (forall q, In q qs -> gen (q_dst q) (q_src q) (q_path q) (q_handlers q) = true) ->
  exists fuel M, (forall more, module_of (fuel + more) qs = Some M) /\
    NoDup (map fst M) /\
    forall key f c, In (key, f) M -> In c (fn_callees f) -> exists f', In ((fst key, c), f') M.
Proof.
  intros qs G. assert (G' : forallb request_gen qs = true) by (apply forallb_forall; exact G).
  destruct (generate_ends (flat_map request_keys qs) []) as (n & M & E).
  assert (E' : forall more, module_of (n + more) qs = Some M) by (intro; unfold module_of; rewrite G'; apply E).
  exists n, M. split; [exact E'|]. destruct (module_inv _ _ _ (E' O)) as (_ & ND & _ & CL & _).
  split; auto. intros key f c I J. destruct (CL _ _ _ I J) as [H|[]]. apply in_map_iff in H.
  destruct H as ([k' f'] & Q & H). cbn [fst] in Q. subst k'. eauto.
Qed.

Lemma encode_mod_ok : forall fconv fuel qs M n pr h p obj buf m,
  module_of fuel qs = Some M -> In (encode_request pr h p) qs ->
  wf h = true -> wf (p_head pr) = true -> (depth (p_head pr) <= n)%nat ->
  encode_mod fconv M n pr h p obj buf m = encode fconv pr h p obj buf m.
Proof.
  intros fconv fuel qs M n pr h p obj buf m E I Wh W L. unfold encode_mod, encode.
  destruct (module_inv _ _ _ E) as (G & _). rewrite forallb_forall in G. specialize (G _ I).
  unfold request_gen in G. cbn [encode_request q_kind q_src q_dst q_path q_handlers] in G. rewrite G.
  exact (request_ok fconv fuel qs M _ n _ _ _ E I Wh W L).
Qed.
Lemma decode_mod_ok : forall fconv fuel qs M n pr h hs msg obj dbuf dsize m,
  module_of fuel qs = Some M -> In (decode_request pr h hs) qs ->
  wf h = true -> wf (p_head pr) = true -> (depth h <= n)%nat ->
  decode_mod fconv M n pr h hs msg obj dbuf dsize m = decode fconv pr h hs msg obj dbuf dsize m.
Proof.
  intros fconv fuel qs M n pr h hs msg obj dbuf dsize m E I Wh W L. unfold decode_mod, decode.
  destruct (module_inv _ _ _ E) as (G & _). rewrite forallb_forall in G. specialize (G _ I).
  unfold request_gen in G. cbn [decode_request q_kind q_src q_dst q_path q_handlers] in G. rewrite G.
  now rewrite (request_ok fconv fuel qs M _ n msg obj (mkSt m dbuf dsize None) E I W Wh L).
Qed.

Lemma C58_same_proof : forall fconv fuel qs M s tp pr h n,
  module_of fuel qs = Some M -> schema s = true -> host h = true -> planned s tp pr ->
  (depth (p_head pr) <= n)%nat -> (depth h <= n)%nat ->
  (forall p obj buf m, In (encode_request pr h p) qs ->
     encode_mod fconv M n pr h p obj buf m = encode fconv pr h p obj buf m) /\
  (forall hs msg obj dbuf dsize m, In (decode_request pr h hs) qs ->
     decode_mod fconv M n pr h hs msg obj dbuf dsize m = decode fconv pr h hs msg obj dbuf dsize m) /\
  (forall p r obj m z, In (size_request pr h p) qs ->
     size_fn fconv pr h p r obj m = Some z -> size_mod fconv M r n pr h p r obj m = Some (z, m)).
Proof.
  intros fconv fuel qs M s tp pr h n E HS HH P L1 L2. destruct (host_inv _ HH) as [_ W]. assert (Wh := head_wf _ _ _ HS P).
  split; [|split]; intros; [eapply encode_mod_ok; eauto|eapply decode_mod_ok; eauto|].
  erewrite size_mod_ops by eauto. now apply size_ops_ok.
Qed.

(** The way of a message through the functions of a module that has the encoder and the decoder,
    whatever else it has. *)
Definition delivers_mod (fconv : Z -> Z -> Z -> Z) (M : module) (n : nat) (h1 : ty) (pr : proto) (h2 : ty)
           (S : Z -> Prop) (m : mem) (obj : Z) (v v' : val) : Prop :=
  exists z, size_mod fconv M false n pr h1 [] false obj m = Some (z, m) /\
  forall buf, clear_of S buf z ->
  exists s, encode_mod fconv M n pr h1 [] obj buf m = Ok s /\
    s_ptr s = buf + z /\ (forall x, ~ inR buf z x -> s_mem s x = m x) /\
    forall m2 msg obj2 dbuf dsize,
      same_bytes z (s_mem s) buf m2 msg ->
      arena h2 (inR msg z) obj2 dbuf dsize -> space h2 v <= dsize ->
      exists o, decode_mod fconv M n pr h2 [] msg obj2 dbuf dsize m2 = DOk o /\
        0 <= o_size o /\
        (forall x, ~ inR obj2 (hsize h2) x -> ~ inR dbuf dsize x -> o_mem o x = m2 x) /\
        rep (fun x => inR obj2 (hsize h2) x \/ inR dbuf dsize x) (o_mem o) h2 obj2 v' /\
        forall R v2, rep R (o_mem o) h2 obj2 v2 -> v2 = v'.

Lemma delivered_mod : forall fconv fuel qs M h1 tp pr h2 S m obj v n,
  module_of fuel qs = Some M -> In (size_request pr h1 []) qs -> In (encode_request pr h1 []) qs ->
  In (decode_request pr h2 []) qs ->
  host h1 = true -> host h2 = true -> planned h1 tp pr -> receives h2 h1 = true ->
  rep S m h1 obj v -> known v = true -> msg_len pr v < 2 ^ 63 ->
  (depth (p_head pr) <= n)%nat -> (depth h2 <= n)%nat ->
  exists v', gets fconv h2 v v' /\ convt fconv h2 v = Some v' /\
    delivers_mod fconv M n h1 pr h2 S m obj v v'.
Proof.
  intros fconv fuel qs M h1 tp pr h2 S m obj v n E I0 I1 I2 H1 H2 P RC R K FIN L1 L2.
  pose proof (host_schema _ H1) as HS. assert (W := head_wf _ _ _ HS P).
  destruct (host_inv _ H1) as [_ W1]. destruct (host_inv _ H2) as [_ W2].
  destruct P as (sel & ->).
  destruct (deliver fconv sel h1 tp h2 S m obj v H1 H2 RC R K FIN) as (SZ & v' & G & CV & X).
  exists v'. split; [exact G|]. split; [exact CV|].
  exists (msg_len (plan_where sel h1 tp) v). split.
  { erewrite size_mod_ops by eauto. apply size_ops_ok; auto. }
  intros buf CL. destruct (X buf CL) as (s & Q & Q2 & F & Y).
  exists s. rewrite (encode_mod_ok fconv fuel qs M n _ h1 [] obj buf m E I1 W1 W L1). repeat split; auto.
  intros m2 msg obj2 dbuf dsize SB AR ND.
  pose proof (dec_need_space h2 v dbuf H2) as SP.
  destruct (Y m2 msg obj2 dbuf dsize [] SB AR) as (o & D & B & Z & _).
  { destruct AR. lia. }
  { apply handlers_fit_nil. }
  destruct Z as (_ & Z2 & _ & _ & Z5); [lia|].
  exists o. rewrite (decode_mod_ok fconv fuel qs M n _ h2 [] msg obj2 dbuf dsize m2 E I2 W2 W L2).
  split; [exact D|]. split; [lia|]. split; [exact B|].
  assert (RR : rep (fun x => inR obj2 (hsize h2) x \/ inR dbuf dsize x) (o_mem o) h2 obj2 v').
  { eapply rep_mono; [|exact Z5]. intros x [Hx|Hx]; auto. right. unfold inR in *. lia. }
  split; [exact RR|]. intros R' v2 R2. eapply rep_det; eauto.
Qed.
Lemma C58_delivers_proof : forall fconv fuel qs M h1 tp pr h2 S m obj v n,
  module_of fuel qs = Some M -> In (size_request pr h1 []) qs -> In (encode_request pr h1 []) qs ->
  In (decode_request pr h2 []) qs ->
  host h1 = true -> host h2 = true -> planned h1 tp pr -> receives h2 h1 = true ->
  rep S m h1 obj v -> known v = true -> msg_len pr v < 2 ^ 63 ->
  (depth (p_head pr) <= n)%nat -> (depth h2 <= n)%nat ->
  exists v', gets fconv h2 v v' /\ delivers_mod fconv M n h1 pr h2 S m obj v v'.
Proof.
  intros fconv fuel qs M h1 tp pr h2 S m obj v n E I0 I1 I2 H1 H2 P RC R K FIN L1 L2.
  destruct (delivered_mod fconv fuel qs M h1 tp pr h2 S m obj v n E I0 I1 I2 H1 H2 P RC R K FIN L1 L2) as (v' & A & _ & B). eauto.
Qed.

(** Decoders with different handlers do not call each other's. *)
Lemma C58_dispatch_proof : forall fconv fuel qs Md n s tp pr h p x ts tbl msg obj dbuf dsize m M v,
  module_of fuel qs = Some Md -> In (decode_request pr h (table_at p tbl)) qs ->
  schema s = true -> host h = true -> planned s tp pr -> receives h s = true ->
  ty_at p h = Some (TVar x ts) -> is_enum x ts = false ->
  message s pr m M msg v -> arena h M obj dbuf dsize -> dbuf + space h v < 2 ^ 63 ->
  (depth h <= n)%nat ->
  exists o, decode_mod fconv Md n pr h (table_at p tbl) msg obj dbuf dsize m = DOk o /\
    (0 <= o_size o ->
     exists v' n w, rep (fun x => inR obj (hsize h) x \/ inR dbuf dsize x) (o_mem o) h obj v' /\
       val_at p v' = Some (VVar n w) /\
       o_called o = lookup n tbl).
Proof.
  intros fconv fuel qs Md n s tp pr h p x ts tbl msg obj dbuf dsize m M v E I HS HH P RC TA NE MS AR FIT L.
  destruct (host_inv _ HH) as [_ W]. assert (Wh := head_wf _ _ _ HS P).
  rewrite (decode_mod_ok fconv fuel qs Md n pr h _ msg obj dbuf dsize m E I W Wh L).
  eapply C10_dispatch_proof; eauto.
Qed.

(** Encoders with different source paths write the same where both apply. *)
Lemma C58_paths_proof : forall fconv fuel qs M n h tp pr q S m obj v,
  module_of fuel qs = Some M -> In (encode_request pr h q) qs -> In (encode_request pr h []) qs ->
  host h = true -> planned h tp pr -> rep S m h obj v -> known v = true ->
  msg_len pr v < 2 ^ 63 -> holds q v -> (depth (p_head pr) <= n)%nat ->
  forall buf z, size_fn fconv pr h [] false obj m = Some z -> clear_of S buf z ->
    encode_mod fconv M n pr h q obj buf m = encode_mod fconv M n pr h [] obj buf m.
Proof.
  intros fconv fuel qs M n h tp pr q S m obj v E I1 I2 H P R K FIN HQ L buf z SZ CL.
  destruct (host_inv _ H) as [_ W]. assert (Wh := head_wf _ _ _ (host_schema _ H) P).
  rewrite (encode_mod_ok fconv fuel qs M n pr h q obj buf m E I1 W Wh L),
          (encode_mod_ok fconv fuel qs M n pr h [] obj buf m E I2 W Wh L).
  destruct (C11_path_same_proof fconv h tp pr q S m obj v H P R K FIN HQ) as [_ X]. eapply X; eauto.
Qed.
