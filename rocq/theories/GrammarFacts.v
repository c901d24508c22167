(** Every file written as GrammarSpec says is read as the declarations written. *)
From Coq Require Import Ascii String List Bool Arith Lia.
From Verif Require Import Grammar GrammarSpec.
Import ListNotations.
Local Open Scope char_scope.

Arguments star : simpl never.
Arguments skip : simpl never.
Arguments tok : simpl never.
Arguments keyword : simpl never.
Arguments id : simpl never.
Arguments num : simpl never.
Arguments scoped_id : simpl never.
Arguments type_expr : simpl never.
Arguments flag : simpl never.
Arguments tag_decl : simpl never.
Arguments opt : simpl never.
Arguments path_decl : simpl never.
Arguments path_text : simpl never.
Arguments handlers_decl : simpl never.
Arguments chars : simpl never.

Lemma eqb_ne a b : a <> b -> Ascii.eqb a b = false.
Proof. intro H. apply Ascii.eqb_neq. exact H. Qed.

(** ** Tokens start with no space *)
Definition solid (t : text) : Prop :=
  exists c r, t = c :: r /\ is_space c = false /\ c <> "/".
Definition W (ts : list text) (s : text) : Prop := spaced ts s /\ Forall solid ts.
Definition G (ts : list text) (s : text) : Prop :=
  exists g r, s = g ++ r /\ filler g /\ W ts r.
Definition After (t : text) (ts : list text) (s : text) : Prop :=
  exists g r, s = g ++ r /\ filler g /\ apart t g ts /\ W ts r.

Lemma after_G t ts s : After t ts s -> G ts s.
Proof. intros (g & r & ? & ? & ? & ?). exists g, r. auto. Qed.
Lemma W_G ts s : W ts s -> G ts s.
Proof. intro H. exists [], s. repeat split; try apply H. constructor. Qed.
Lemma W_nil s : W [] s -> s = [].
Proof. intros (H & _). inversion H. reflexivity. Qed.
Lemma W_inv t ts s : W (t :: ts) s -> solid t /\ exists r, s = t ++ r /\ After t ts r.
Proof.
  intros (H & F). inversion H; subst. inversion F; subst. split; [assumption|].
  eexists. split; [reflexivity|]. exists g, s0. repeat split; auto.
Qed.
Lemma spaced_len ts s : W ts s -> length ts <= length s.
Proof.
  intros (H & F). induction H; cbn [length]; [lia|]. inversion F as [|? ? (c & r & -> & _) F2]; subst.
  specialize (IHspaced F2). rewrite !app_length. cbn [length]. lia.
Qed.
Lemma G_len ts s : G ts s -> length ts <= length s.
Proof. intros (g & r & -> & _ & H). apply spaced_len in H. rewrite app_length. lia. Qed.

(** ** Skipping *)
Lemma line_body b s : ~ In newline b -> line (b ++ newline :: s) = Some s.
Proof.
  induction b as [|c b IH]; intro H; [reflexivity|]. cbn [app line].
  rewrite eqb_ne. 2:{ intro E. apply H. left. exact E. }
  apply IH. intro I. apply H. right. exact I.
Qed.
Lemma one_step a s : one_filler a -> space_or_comment (a ++ s) = Some s.
Proof.
  intros [c H|b H]; cbn [app space_or_comment].
  - rewrite H. reflexivity.
  - change (is_space "/") with false. cbn. rewrite <- app_assoc. apply line_body. exact H.
Qed.
Definition stop (s : text) : Prop := s = [] \/ exists c r, s = c :: r /\ is_space c = false /\ c <> "/".
Lemma stop_none s : stop s -> space_or_comment s = None.
Proof.
  intros [->|(c & r & -> & A & B)]; [reflexivity|]. cbn. rewrite A, (eqb_ne _ _ B). reflexivity.
Qed.
Lemma W_stop ts s : W ts s -> stop s.
Proof.
  destruct ts as [|t ts]; intro H.
  - left. apply W_nil. exact H.
  - destruct (W_inv _ _ _ H) as ((c & r & -> & A & B) & q & -> & _). right.
    exists c, (r ++ q). auto.
Qed.
Lemma one_len a : one_filler a -> 1 <= length a.
Proof. intros [? ?|? ?]; cbn; lia. Qed.
Lemma skip_f_gap g : filler g -> forall n s, stop s -> length (g ++ s) <= n -> skip_f n (g ++ s) = s.
Proof.
  induction 1 as [|a g O F IH]; intros n s S L.
  - cbn [app]. destruct n; [reflexivity|]. cbn [skip_f]. rewrite (stop_none _ S). reflexivity.
  - pose proof (one_len _ O) as L1. rewrite <- app_assoc in *. rewrite app_length in L.
    destruct n as [|n]; [lia|]. cbn [skip_f]. rewrite (one_step _ _ O). apply IH; [exact S|lia].
Qed.
Lemma skip_gap g s : filler g -> stop s -> skip (g ++ s) = s.
Proof. intros F S. apply skip_f_gap; auto. Qed.
Lemma skip_G ts s : G ts s -> W ts (skip s).
Proof.
  intros (g & r & -> & F & H). rewrite skip_gap; [exact H|exact F|]. apply (W_stop _ _ H).
Qed.
Lemma skip_W ts s : W ts s -> skip s = s.
Proof. intro H. apply (skip_gap [] s); [constructor|]. apply (W_stop _ _ H). Qed.

Lemma lit_app k s : lit k (k ++ s) = Some s.
Proof. induction k as [|c k IH]; [reflexivity|]. cbn. rewrite Ascii.eqb_refl. exact IH. Qed.
Lemma lit_sound k s r : lit k s = Some r -> s = k ++ r.
Proof.
  revert s. induction k as [|c k IH]; intros s H; cbn in H; [injection H as <-; reflexivity|].
  destruct s as [|b s]; [discriminate|]. destruct (Ascii.eqb c b) eqn:E; [|discriminate].
  apply Ascii.eqb_eq in E. subst. cbn. f_equal. apply IH. exact H.
Qed.

Lemma tok_yes c ts s : G ([c] :: ts) s -> exists r, tok c s = Yes tt r /\ W ts r.
Proof.
  intro H. apply skip_G in H. destruct (W_inv _ _ _ H) as (_ & q & E & A). unfold tok.
  rewrite E, lit_app. exists (skip q). split; [reflexivity|]. apply skip_G. apply (after_G _ _ _ A).
Qed.
(** The first character of what comes next. *)
Definition next (ts : list text) : option ascii :=
  match ts with (c :: _) :: _ => Some c | _ => None end.
Lemma tok_no c ts s : G ts s -> next ts <> Some c -> tok c s = No.
Proof.
  intros H N. apply skip_G in H. unfold tok. destruct ts as [|t ts].
  - rewrite (W_nil _ H). reflexivity.
  - destruct (W_inv _ _ _ H) as ((b & r & -> & _) & q & -> & _). cbn [lit app].
    rewrite eqb_ne; [reflexivity|]. intro E. apply N. cbn. rewrite E. reflexivity.
Qed.

(** ** Words *)
Definition word (t : text) : Prop := t <> [] /\ forallb ident_other t = true.
Lemma word_ends t : word t -> ends_word t = true.
Proof.
  intros (N & F). unfold ends_word. destruct (rev t) as [|c r] eqn:E.
  - exfalso. apply N. rewrite <- (rev_involutive t), E. reflexivity.
  - cbn. rewrite forallb_forall in F. apply F. apply in_rev. rewrite E. left. reflexivity.
Qed.
Lemma one_start a s : one_filler a -> starts ident_other (a ++ s) = false.
Proof.
  intros [c H|b H]; [|reflexivity]. cbn [app starts].
  destruct (ident_other c) eqn:E; [|reflexivity]. exfalso.
  unfold is_space, ident_other, ident_first, is_digit, between in *.
  rewrite !orb_true_iff, !andb_true_iff, !Nat.leb_le in *.
  rewrite !Ascii.eqb_eq in *.
  destruct H as [->|(H1 & H2)]; [vm_compute in E; repeat (destruct E as [E|E] || destruct E as (?&?)); try lia; discriminate|].
  destruct E as [[[E|E]|E]|E]; try (destruct E as (E1&E2));
    change (nat_of_ascii "013") with 13 in H2.
  - change (nat_of_ascii "a") with 97 in E1. lia.
  - change (nat_of_ascii "A") with 65 in E1. lia.
  - subst c. vm_compute in H2. lia.
  - change (nat_of_ascii "0") with 48 in E1. lia.
Qed.
Lemma word_stop t ts r : word t -> After t ts r -> starts ident_other r = false.
Proof.
  intros Ht (g & q & -> & F & A & H). destruct F as [|a g O F].
  - cbn [app]. destruct ts as [|u ts]; [rewrite (W_nil _ H); reflexivity|].
    destruct (W_inv _ _ _ H) as ((c & r & -> & _) & p & -> & _). cbn.
    destruct (ident_other c) eqn:E; [|reflexivity]. exfalso. destruct A as (A & _).
    apply A; [apply word_ends; exact Ht|exact E|reflexivity].
  - rewrite <- app_assoc. apply one_start. exact O.
Qed.
Lemma keyword_yes k ts s : word (chars k) -> G (chars k :: ts) s -> exists r, keyword k s = Yes tt r /\ W ts r.
Proof.
  intros K H. apply skip_G in H. destruct (W_inv _ _ _ H) as (_ & q & E & A). unfold keyword.
  rewrite E, lit_app, (word_stop _ _ _ K A). exists (skip q). split; [reflexivity|].
  apply skip_G. apply (after_G _ _ _ A).
Qed.
(** A text is a word and what is not one: at most one way. *)
Lemma word_same a b r q :
  forallb ident_other a = true -> forallb ident_other b = true ->
  starts ident_other r = false -> starts ident_other q = false -> a ++ r = b ++ q -> a = b.
Proof.
  revert b. induction a as [|c a IH]; intros [|d b] A B R Q E; cbn in *.
  - reflexivity.
  - subst r. cbn in R. apply andb_prop in B. destruct B. congruence.
  - subst q. cbn in Q. apply andb_prop in A. destruct A. congruence.
  - apply andb_prop in A. apply andb_prop in B. injection E as -> E. f_equal.
    apply IH; tauto.
Qed.
(** What a keyword other than [k] may be taken for. *)
Definition other_than (k : string) (ts : list text) : Prop :=
  match ts with
  | [] => True
  | t :: _ => starts ident_other t = false \/ (word t /\ t <> chars k)
  end.
Lemma keyword_no k ts s : word (chars k) -> G ts s -> other_than k ts -> keyword k s = No.
Proof.
  intros K H N. apply skip_G in H. unfold keyword. destruct (lit (chars k) (skip s)) as [r|] eqn:E; [|reflexivity].
  apply lit_sound in E. destruct (starts ident_other r) eqn:S; [reflexivity|]. exfalso.
  destruct K as (K0 & K). destruct ts as [|t ts].
  - rewrite (W_nil _ H) in E. destruct (chars k); [congruence|discriminate].
  - destruct (W_inv _ _ _ H) as ((c & t2 & Et & _) & q & E2 & A). rewrite E in E2.
    destruct N as [N|(N & D)].
    + subst t. destruct (chars k) as [|d l]; [congruence|]. cbn in E2. injection E2 as -> _.
      cbn in N, K. apply andb_prop in K. destruct K. congruence.
    + apply D. symmetry. apply (word_same _ _ r q); auto; [apply N|].
      apply (word_stop _ _ _ N A).
Qed.

Lemma span_all p a r : forallb p a = true -> starts p r = false -> span p (a ++ r) = (a, r).
Proof.
  induction a as [|c a IH]; intros A R.
  - cbn [app]. destruct r as [|c r]; [reflexivity|]. cbn in *. rewrite R. reflexivity.
  - cbn [app span]. cbn in A. apply andb_prop in A. destruct A as (A1 & A2).
    rewrite A1, (IH A2 R). reflexivity.
Qed.
Lemma name_word n : name n -> word n.
Proof. intros (A & B). split; [|exact B]. intros ->. discriminate. Qed.
Lemma id_yes n ts s : name n -> W (n :: ts) s -> exists r, id s = Yes n r /\ After n ts r.
Proof.
  intros N H. destruct (W_inv _ _ _ H) as (_ & r & -> & A). pose proof (word_stop _ _ _ (name_word _ N) A) as S.
  exists r. split; [|exact A]. destruct N as (N1 & N2). unfold id.
  assert (X : starts ident_first (n ++ r) = true) by (destruct n; [discriminate|exact N1]).
  rewrite X, (span_all _ _ _ N2 S). reflexivity.
Qed.
Lemma id_no ts s : W ts s -> (forall c, next ts = Some c -> ident_first c = false) -> id s = No.
Proof.
  intros H N. unfold id. destruct ts as [|t ts]; [rewrite (W_nil _ H); reflexivity|].
  destruct (W_inv _ _ _ H) as ((c & r & -> & _) & q & -> & _). cbn [starts app].
  rewrite (N c eq_refl). reflexivity.
Qed.

Lemma digit_other c : is_digit c = true -> ident_other c = true.
Proof. intro H. unfold ident_other. rewrite H. apply orb_true_r. Qed.
Lemma digits_all d : forallb is_digit d = true -> forallb ident_other d = true.
Proof.
  rewrite !forallb_forall. intros H c I. apply digit_other. apply H. exact I.
Qed.
Lemma digits_word d : digits d -> word d.
Proof. intros (A & B). split; [exact A|]. apply digits_all. exact B. Qed.
Lemma not_other_digit r : starts ident_other r = false -> starts is_digit r = false.
Proof.
  destruct r as [|c r]; [reflexivity|]. cbn. intro H. unfold ident_other in H.
  apply orb_false_iff in H. tauto.
Qed.
Lemma num_app d r : digits d -> starts ident_other r = false -> num (d ++ r) = Yes d r.
Proof.
  intros (A & B) S. unfold num. rewrite (span_all _ _ _ B (not_other_digit _ S)).
  destruct d; [congruence|reflexivity].
Qed.
Lemma num_yes d ts s : digits d -> W (d :: ts) s -> exists r, num s = Yes d r /\ G ts r.
Proof.
  intros D H. destruct (W_inv _ _ _ H) as (_ & r & -> & A).
  exists r. split; [|apply (after_G _ _ _ A)]. apply num_app; [exact D|].
  apply (word_stop _ _ _ (digits_word _ D) A).
Qed.
Lemma num_no ts s : W ts s -> (forall c, next ts = Some c -> is_digit c = false) -> num s = No.
Proof.
  intros H N. unfold num. destruct ts as [|t ts]; [rewrite (W_nil _ H); reflexivity|].
  destruct (W_inv _ _ _ H) as ((c & r & -> & _) & q & -> & _). cbn [span app].
  rewrite (N c eq_refl). reflexivity.
Qed.

(** ** Repetition *)
Section Star.
  Context {A : Type} (p : text -> pres A) (f : A -> list text) (I : list text -> text -> Prop).
  Hypothesis len : forall ts s, I ts s -> length ts <= length s.
  Lemma star_f_yes ts l n s :
    (forall x l2 s, In x l -> I (f x ++ flat_map f l2 ++ ts) s ->
       exists r, p s = Yes x r /\ I (flat_map f l2 ++ ts) r) ->
    (forall s, I ts s -> p s = No) ->
    I (flat_map f l ++ ts) s -> length l < n ->
    exists r, star_f n p s = Yes l r /\ I ts r.
  Proof.
    intros P N. revert n s. induction l as [|x l IH]; intros n s H L; (destruct n as [|n]; [cbn in L; lia|]).
    - cbn [star_f flat_map app] in *. rewrite (N _ H). eauto.
    - cbn [flat_map] in H. rewrite <- app_assoc in H.
      destruct (P x _ _ (or_introl eq_refl) H) as (r & E & Hr). cbn [star_f]. rewrite E.
      destruct (IH (fun y us s I0 => P y us s (or_intror I0)) n r Hr) as (r2 & E2 & H2); [cbn in L; lia|].
      rewrite E2. cbn. eauto.
  Qed.
  Lemma star_yes2 ts l s :
    (forall x l2 s, In x l -> I (f x ++ flat_map f l2 ++ ts) s ->
       exists r, p s = Yes x r /\ I (flat_map f l2 ++ ts) r) ->
    (forall s, I ts s -> p s = No) -> (forall x, In x l -> f x <> []) ->
    I (flat_map f l ++ ts) s -> exists r, star p s = Yes l r /\ I ts r.
  Proof.
    intros P N F H. unfold star. apply (star_f_yes ts); auto. pose proof (len _ _ H) as L.
    rewrite app_length in L.
    assert (X : length l <= length (flat_map f l)).
    { clear - F. induction l as [|x l IH]; [cbn; lia|]. cbn [flat_map length]. rewrite app_length.
      specialize (IH (fun y I => F y (or_intror I))). specialize (F x (or_introl eq_refl)).
      destruct (f x); [congruence|]. cbn [length]. lia. }
    lia.
  Qed.
  Lemma star_yes ts l s :
    (forall x us s, In x l -> I (f x ++ us) s -> exists r, p s = Yes x r /\ I us r) ->
    (forall s, I ts s -> p s = No) -> (forall x, In x l -> f x <> []) ->
    I (flat_map f l ++ ts) s -> exists r, star p s = Yes l r /\ I ts r.
  Proof. intro P. apply star_yes2. intros x l2 q. apply P. Qed.
End Star.

(** ** One step of a rule *)
Ltac lst := repeat rewrite <- app_assoc in *; cbn [app kw p1 opt_toks flag_toks] in *.
Ltac kw_word := split; [discriminate|vm_compute; reflexivity].

Lemma dotted_cons a l ts : dotted (a :: l) ++ ts = a :: (flat_map (fun b => [["."]; b]) l ++ ts).
Proof.
  revert a. induction l as [|b l IH]; intro a; [reflexivity|].
  change (dotted (a :: b :: l)) with (a :: ["."] :: dotted (b :: l)). cbn [app flat_map].
  rewrite IH. reflexivity.
Qed.
Lemma scoped_yes l ts s :
  names l -> W (dotted l ++ ts) s -> next ts <> Some "." ->
  exists r, scoped_id s = Yes l r /\ G ts r.
Proof.
  intros (N & F) H D. destruct l as [|a l]; [congruence|]. inversion F; subst.
  rewrite dotted_cons in H.
  destruct (id_yes _ _ _ H2 H) as (r & E & A). unfold scoped_id. rewrite E. cbn.
  destruct (star_yes id_suffix (fun b => [["."]; b]) G G_len ts l r) as (r2 & E2 & G2).
  - intros x us q I Hq. cbn [app] in Hq. destruct (tok_yes _ _ _ Hq) as (q2 & Eq & Wq).
    unfold id_suffix. rewrite Eq. cbn.
    destruct (id_yes x us q2) as (q3 & E3 & A3); [|exact Wq|].
    + rewrite Forall_forall in H3. apply H3. exact I.
    + rewrite E3. cbn. exists q3. split; [reflexivity|]. apply (after_G _ _ _ A3).
  - intros q Hq. unfold id_suffix. rewrite (tok_no _ _ _ Hq D). reflexivity.
  - intros; discriminate.
  - apply (after_G _ _ _ A).
  - rewrite E2. cbn. eauto.
Qed.

(** ** Types *)
Lemma lit_cut k t r :
  forallb ident_other k = true -> forallb ident_other t = true -> starts ident_other r = false ->
  forall q, lit k (t ++ r) = Some q -> exists u, t = k ++ u /\ q = u ++ r.
Proof.
  revert t. induction k as [|c k IH]; intros t K T R q E; cbn in E.
  - injection E as <-. exists t. auto.
  - cbn in K. apply andb_prop in K. destruct K as (K1 & K2). destruct t as [|d t].
    + cbn in E. destruct r as [|d r]; [discriminate|]. destruct (Ascii.eqb c d) eqn:X; [|discriminate].
      apply Ascii.eqb_eq in X. subst. cbn in R. congruence.
    + cbn in E, T. apply andb_prop in T. destruct T as (T1 & T2).
      destruct (Ascii.eqb c d) eqn:X; [|discriminate]. apply Ascii.eqb_eq in X. subst.
      destruct (IH t K2 T2 R q E) as (u & -> & ->). exists u. auto.
Qed.
Lemma prefixed_no k t r :
  forallb ident_other (chars k) = true -> forallb ident_other t = true -> starts ident_other r = false ->
  (forall c u, is_digit c = true -> t <> chars k ++ c :: u) -> prefixed k (t ++ r) = No.
Proof.
  intros K T R N. unfold prefixed. destruct (lit (chars k) (t ++ r)) as [q|] eqn:E; [|reflexivity].
  destruct (lit_cut _ _ _ K T R _ E) as (u & -> & ->). unfold num.
  destruct u as [|c u].
  - cbn [app]. pose proof (not_other_digit _ R) as R2. destruct r as [|c r]; [reflexivity|].
    cbn in *. rewrite R2. reflexivity.
  - cbn [app span]. destruct (is_digit c) eqn:D; [|reflexivity]. exfalso. apply (N c u D). reflexivity.
Qed.
Lemma prefixed_yes k d r :
  digits d -> starts ident_other r = false -> prefixed k ((chars k ++ d) ++ r) = Yes d r.
Proof.
  intros D R. unfold prefixed. rewrite <- app_assoc, lit_app. apply num_app; auto.
Qed.
Lemma word_pre k d : forallb ident_other (chars k) = true -> digits d -> word (chars k ++ d).
Proof.
  intros K D. split; [intro E; apply app_eq_nil in E; destruct D; tauto|].
  rewrite forallb_app, K. destruct D as (_ & D). rewrite (digits_all _ D). reflexivity.
Qed.

Lemma base_yes b ts s :
  ok_base b -> W (base_toks b ++ ts) s -> next ts <> Some "." ->
  exists r, base_type s = Yes b r /\ G ts r.
Proof.
  intros O H N. destruct b as [d|d|d|d| |n]; cbn [base_toks ok_base kw] in *; unfold base_type.
  1-4: cbn [app] in H; destruct (W_inv _ _ _ H) as (_ & r & E & A); cbn [app] in E; subst s;
    match type of A with After ?t _ _ =>
      assert (Wd : word t) by (apply word_pre; [vm_compute; reflexivity|exact O]) end;
    pose proof (word_stop _ _ _ Wd A) as S; exists r; (split; [|apply (after_G _ _ _ A)]).
  - rewrite (prefixed_yes "uint" d r O S). reflexivity.
  - rewrite (prefixed_no "uint"); [|vm_compute; reflexivity|apply Wd|exact S|intros; discriminate].
    rewrite (prefixed_yes "int" d r O S). reflexivity.
  - rewrite (prefixed_no "uint"); [|vm_compute; reflexivity|apply Wd|exact S|intros; discriminate].
    rewrite (prefixed_no "int"); [|vm_compute; reflexivity|apply Wd|exact S|intros; discriminate].
    rewrite (prefixed_yes "char" d r O S). reflexivity.
  - rewrite (prefixed_no "uint"); [|vm_compute; reflexivity|apply Wd|exact S|intros; discriminate].
    rewrite (prefixed_no "int"); [|vm_compute; reflexivity|apply Wd|exact S|intros; discriminate].
    rewrite (prefixed_no "char"); [|vm_compute; reflexivity|apply Wd|exact S|intros; discriminate].
    rewrite (prefixed_yes "float" d r O S). reflexivity.
  - assert (K : word (chars "any")) by kw_word.
    destruct (keyword_yes "any" ts s K (W_G _ _ H)) as (r & E & Hr). exists r.
    split; [|apply W_G; exact Hr]. rewrite E.
    cbn [app] in H. destruct (W_inv _ _ _ H) as (_ & q & -> & A).
    pose proof (word_stop _ _ _ K A) as S.
    rewrite !prefixed_no; try (vm_compute; reflexivity); try exact S; try (intros; discriminate).
  - destruct O as (O & F1 & F2).
    destruct (scoped_yes n ts s O H N) as (r & E & Hr). exists r. split; [|exact Hr].
    rewrite E. destruct O as (O1 & O2). destruct n as [|a n]; [congruence|]. inversion O2; subst.
    rewrite dotted_cons in H. pose proof (name_word _ H2) as Wa.
    rewrite (keyword_no "any" _ _ ltac:(kw_word) (W_G _ _ H)) by (right; split; [exact Wa|exact F1]).
    destruct (W_inv _ _ _ H) as (_ & q & -> & A). pose proof (word_stop _ _ _ Wa A) as S.
    cbn [hd] in F2.
    rewrite !prefixed_no; try (vm_compute; reflexivity); try apply Wa; try exact S; try reflexivity;
      intros c u D; apply F2; auto; cbn; tauto.
Qed.

Lemma mod_yes m ts s : ok_mod m -> G (mod_toks m ++ ts) s -> exists r, modif s = Yes m r /\ W ts r.
Proof.
  intros O H. unfold modif, fixed_mod, var_mod. destruct m as [d|a b]; cbn [mod_toks] in H; lst.
  - destruct (tok_yes _ _ _ H) as (r & E & H1). rewrite E. cbn.
    destruct (num_yes _ _ _ O H1) as (r2 & E2 & H2). rewrite E2. cbn.
    destruct (tok_yes _ _ _ H2) as (r3 & E3 & H3). rewrite E3. cbn. eauto.
  - destruct (tok_yes _ _ _ H) as (r & E & H1). rewrite E. cbn. destruct O as (Oa & Ob).
    assert (X : exists r2, opt num r = Yes a r2 /\
                G ([":"] :: opt_toks (fun d => [d]) b ++ ["]"] :: ts) r2 /\
                orelse (do d, r2 <- num r; do y, r3 <- tok "]" r2; Yes (Fixed d) r3)
                  (do a0, r2 <- opt num r; do y, r3 <- tok ":" r2;
                   do b0, r4 <- opt num r3; do z, r5 <- tok "]" r4; Yes (Var a0 b0) r5) =
                (do a0, r2 <- opt num r; do y, r3 <- tok ":" r2;
                   do b0, r4 <- opt num r3; do z, r5 <- tok "]" r4; Yes (Var a0 b0) r5)).
    { destruct a as [d|]; cbn [opt_toks app] in H1.
      - destruct (num_yes _ _ _ Oa H1) as (r2 & E2 & H2). exists r2. unfold opt. rewrite E2.
        split; [reflexivity|]. split; [exact H2|]. cbn.
        rewrite (tok_no "]" _ _ H2) by (cbn; discriminate). reflexivity.
      - exists r. unfold opt. rewrite (num_no _ _ H1) by (cbn; intros c X; injection X as <-; reflexivity).
        split; [reflexivity|]. split; [apply W_G; exact H1|]. reflexivity. }
    destruct X as (r2 & E2 & H2 & ->). rewrite E2. cbn.
    destruct (tok_yes _ _ _ H2) as (r3 & E3 & H3). rewrite E3. cbn.
    assert (Y : exists r4, opt num r3 = Yes b r4 /\ G (["]"] :: ts) r4).
    { destruct b as [d|]; cbn [opt_toks app] in H3; unfold opt.
      - destruct (num_yes _ _ _ Ob H3) as (r4 & E4 & H4). rewrite E4. eauto.
      - rewrite (num_no _ _ H3) by (cbn; intros c X; injection X as <-; reflexivity).
        exists r3. split; [reflexivity|]. apply W_G. exact H3. }
    destruct Y as (r4 & E4 & H4). rewrite E4. cbn.
    destruct (tok_yes _ _ _ H4) as (r5 & E5 & H5). rewrite E5. cbn. eauto.
Qed.
Lemma mod_no ts s : G ts s -> next ts <> Some "[" -> modif s = No.
Proof.
  intros H N. unfold modif, fixed_mod, var_mod. rewrite (tok_no _ _ _ H N). reflexivity.
Qed.
Lemma mods_next l ts c : next (flat_map mod_toks l ++ ts) = Some c -> c = "[" \/ next ts = Some c.
Proof.
  destruct l as [|[d|a b] l]; cbn; [tauto| |]; intro X; injection X as <-; tauto.
Qed.
Lemma type_yes t ts s :
  ok_type t -> W (type_toks t ++ ts) s -> next ts <> Some "." -> next ts <> Some "[" ->
  exists r, type_expr s = Yes t r /\ G ts r.
Proof.
  intros (Ob & Om) H N1 N2. destruct t as [b l]. unfold type_toks in H. cbn [t_base t_mods] in *.
  rewrite <- app_assoc in H.
  destruct (base_yes _ _ _ Ob H) as (r & E & H1).
  { intro X. apply mods_next in X. destruct X as [X|X]; [discriminate|auto]. }
  unfold type_expr. rewrite E. cbn.
  destruct (star_yes modif mod_toks G G_len ts l r) as (r2 & E2 & H2).
  - intros x us q I Hq. rewrite Forall_forall in Om.
    destruct (mod_yes _ _ _ (Om _ I) Hq) as (q2 & Eq & Hq2). exists q2. split; [exact Eq|].
    apply W_G. exact Hq2.
  - intros q Hq. apply (mod_no _ _ Hq N2).
  - intros [d|a c] _; discriminate.
  - exact H1.
  - rewrite E2. cbn. eauto.
Qed.

(** ** Fields *)
Lemma must_yes {A} (x : A) r : must (Yes x r) = Yes x r.
Proof. reflexivity. Qed.
Ltac done_yes := eexists; split; [reflexivity|]; auto using W_G.
Lemma field_yes f ts s : ok_field f -> W (field_toks f ++ ts) s -> exists r, field_decl s = Yes f r /\ W ts r.
Proof.
  intros (On & Ot) H. destruct f as [n t]. unfold field_toks in H. cbn [fst snd] in *. lst.
  destruct (id_yes _ _ _ On H) as (r & E & A). unfold field_decl. rewrite E. cbn.
  destruct (tok_yes _ _ _ (after_G _ _ _ A)) as (r2 & E2 & H2). rewrite E2. cbn.
  destruct (type_yes _ _ _ Ot H2) as (r3 & E3 & H3); [cbn; discriminate|cbn; discriminate|].
  rewrite E3. cbn. destruct (tok_yes _ _ _ H3) as (r4 & E4 & H4). rewrite E4. cbn. eauto.
Qed.
Lemma flag_yes k b ts s :
  word (chars k) -> G (flag_toks k b ++ ts) s -> (b = false -> other_than k ts) ->
  exists r, flag k s = Yes b r /\ G ts r.
Proof.
  intros K H N. unfold flag, opt, map_pres. destruct b; cbn [flag_toks app kw] in H.
  - destruct (keyword_yes _ _ _ K H) as (r & E & H1). rewrite E. cbn. exists r. split; [reflexivity|].
    apply W_G. exact H1.
  - rewrite (keyword_no _ _ _ K H (N eq_refl)). cbn. eauto.
Qed.
Lemma tag_yes g ts s :
  ok_opt ok_tag g -> G (opt_toks tag_toks g ++ ts) s -> next ts <> Some "=" ->
  exists r, tag_decl s = Yes g r /\ G ts r.
Proof.
  intros O H N. unfold tag_decl, opt. destruct g as [g|]; cbn [opt_toks] in H.
  - unfold tag_toks in H. lst. destruct (tok_yes _ _ _ H) as (r & E & H1). rewrite E. cbn.
    unfold explicit_tag. destruct g as [d|c]; cbn in O.
    + destruct (num_yes _ _ _ O H1) as (r2 & E2 & H2). rewrite E2. cbn. eauto.
    + rewrite (num_no _ _ H1) by (cbn; intros x X; injection X as <-; reflexivity).
      destruct (W_inv _ _ _ H1) as (_ & q & -> & A). cbn. exists q. split; [reflexivity|].
      apply (after_G _ _ _ A).
  - rewrite (tok_no _ _ _ H N). cbn. eauto.
Qed.
Lemma default_next b ts : next (flag_toks "default" b ++ [";"] :: ts) <> Some "=".
Proof. destruct b; cbn; discriminate. Qed.
Lemma tags_next g b ts c :
  next (opt_toks tag_toks g ++ flag_toks "default" b ++ [";"] :: ts) = Some c ->
  c = "=" \/ c = "d" \/ c = ";".
Proof. destruct g, b; cbn; intro X; injection X as <-; tauto. Qed.
Lemma vfield_yes f ts s :
  ok_vfield f -> W (vfield_toks f ++ ts) s -> exists r, variant_field s = Yes f r /\ W ts r.
Proof.
  intros (On & Ot & Og) H. destruct f as [n t g b]. unfold vfield_toks in H.
  cbn [vf_name vf_type vf_tag vf_default] in *. lst.
  destruct (id_yes _ _ _ On H) as (r & E & A). unfold variant_field. rewrite E. cbn.
  assert (X : exists r2, opt (fun s => do x, r <- tok ":" s; type_expr r) r = Yes t r2 /\
              G (opt_toks tag_toks g ++ flag_toks "default" b ++ [";"] :: ts) r2).
  { unfold opt. apply after_G in A. destruct t as [t|]; cbn [opt_toks] in A.
    - lst. destruct (tok_yes _ _ _ A) as (r2 & E2 & H2). rewrite E2. cbn.
      destruct (type_yes _ _ _ Ot H2) as (r3 & E3 & H3).
      + intro X. apply tags_next in X. destruct X as [X|[X|X]]; discriminate.
      + intro X. apply tags_next in X. destruct X as [X|[X|X]]; discriminate.
      + rewrite E3. eauto.
    - cbn [app] in A. rewrite (tok_no _ _ _ A); [cbn; eauto|].
      intro X. apply tags_next in X. destruct X as [X|[X|X]]; discriminate. }
  destruct X as (r2 & E2 & H2). rewrite E2. cbn.
  destruct (tag_yes _ _ _ Og H2 (default_next _ _)) as (r3 & E3 & H3). rewrite E3. cbn.
  destruct (flag_yes "default" b _ _ ltac:(kw_word) H3) as (r4 & E4 & H4).
  { intros _. left. reflexivity. }
  rewrite E4. cbn. destruct (tok_yes _ _ _ H4) as (r5 & E5 & H5). rewrite E5. cbn. eauto.
Qed.
Lemma efield_yes f ts s :
  ok_vfield f /\ vf_type f = None -> W (vfield_toks f ++ ts) s ->
  exists r, enum_field s = Yes f r /\ W ts r.
Proof.
  intros ((On & Ot & Og) & T) H. destruct f as [n t g b]. unfold vfield_toks in H.
  cbn [vf_name vf_type vf_tag vf_default] in *. subst t. lst.
  destruct (id_yes _ _ _ On H) as (r & E & A). unfold enum_field. rewrite E. cbn.
  destruct (tag_yes _ _ _ Og (after_G _ _ _ A) (default_next _ _)) as (r3 & E3 & H3). rewrite E3. cbn.
  destruct (flag_yes "default" b _ _ ltac:(kw_word) H3) as (r4 & E4 & H4).
  { intros _. left. reflexivity. }
  rewrite E4. cbn. destruct (tok_yes _ _ _ H4) as (r5 & E5 & H5). rewrite E5. cbn. eauto.
Qed.

(** ** Paths *)
Lemma id_app n r : name n -> starts ident_other r = false -> id (n ++ r) = Yes n r.
Proof.
  intros (N1 & N2) S. unfold id.
  assert (X : starts ident_first (n ++ r) = true) by (destruct n; [discriminate|exact N1]).
  rewrite X, (span_all _ _ _ N2 S). reflexivity.
Qed.
Lemma other_stop c r : ident_other c = true -> stop (c :: r).
Proof.
  intro H. right. exists c, r. split; [reflexivity|]. split; [|intros ->; discriminate].
  destruct (is_space c) eqn:S; [|reflexivity]. pose proof (one_start [c] [] (One_space c S)) as X.
  cbn in X. congruence.
Qed.
Lemma first_other c : ident_first c = true -> ident_other c = true.
Proof. intro H. unfold ident_other. rewrite H. reflexivity. Qed.
Lemma name_stop n r : name n -> stop (n ++ r).
Proof.
  intros (N & _). destruct n as [|c n]; [discriminate|]. cbn [app]. apply other_stop. apply first_other.
  exact N.
Qed.
Lemma skip_stop s : stop s -> skip s = s.
Proof. intro H. apply (skip_gap [] s); [constructor|exact H]. Qed.
Lemma path_step_yes a r : name a -> stop r -> path_step (a ++ "." :: r) = Yes tt r.
Proof.
  intros N S. unfold path_step. rewrite (id_app a) by (auto; reflexivity). cbn. unfold tok.
  rewrite skip_stop. 2:{ right. exists ".", r. repeat split; discriminate. }
  cbn [lit]. rewrite Ascii.eqb_refl. rewrite (skip_stop _ S). reflexivity.
Qed.
Lemma dot_text_stop l r : l <> [] -> Forall name l -> stop (dot_text l ++ r).
Proof.
  intros N F. destruct l as [|a l]; [congruence|]. inversion F; subst.
  destruct l; cbn [dot_text]; [|rewrite <- app_assoc]; apply name_stop; assumption.
Qed.
Lemma last_shift (l : list text) : forall a b, last (b :: l) a = last l b.
Proof.
  induction l as [|c l IH]; intros a b; [reflexivity|].
  change (last (b :: c :: l) a) with (last (c :: l) a). rewrite (IH a c), (IH b c). reflexivity.
Qed.
Lemma path_star l : forall a n r,
  Forall name (a :: l) -> starts ident_other r = false -> tok "." r = No -> length l < n ->
  exists us, star_f n path_step (dot_text (a :: l) ++ r) = Yes us (last l a ++ r).
Proof.
  induction l as [|b l IH]; intros a n r F S T L; inversion F; subst; (destruct n as [|n]; [lia|]).
  - cbn [dot_text last star_f]. unfold path_step at 1. rewrite (id_app _ _ H1 S). cbn. rewrite T. eauto.
  - change (dot_text (a :: b :: l)) with (a ++ "." :: dot_text (b :: l)). rewrite <- app_assoc.
    cbn [app star_f].
    rewrite (path_step_yes a _ H1) by (apply dot_text_stop; [discriminate|assumption]).
    destruct (IH b n r H2 S T) as (us & E); [cbn in L; lia|]. rewrite E. cbn [andthen].
    rewrite last_shift. eauto.
Qed.
Lemma last_name l a : Forall name (a :: l) -> name (last l a).
Proof.
  revert a. induction l as [|b l IH]; intros a F; inversion F; subst; [assumption|].
  destruct l; [inversion H2; assumption|]. apply IH. constructor; [assumption|].
  inversion H2; assumption.
Qed.
Lemma dot_text_len l a : length l <= length (dot_text (a :: l)).
Proof.
  revert a. induction l as [|b l IH]; intro a; [cbn; lia|].
  change (dot_text (a :: b :: l)) with (a ++ "." :: dot_text (b :: l)). rewrite app_length.
  specialize (IH b). cbn [length] in *. lia.
Qed.
Lemma dot_text_ends l a : Forall name (a :: l) -> ends_word (dot_text (a :: l)) = true.
Proof.
  revert a. induction l as [|b l IH]; intros a F; inversion F; subst.
  - cbn [dot_text]. apply word_ends. apply name_word. assumption.
  - change (dot_text (a :: b :: l)) with (a ++ "." :: dot_text (b :: l)).
    specialize (IH b H2). unfold ends_word in *. rewrite rev_app_distr. cbn [rev].
    rewrite <- app_assoc. destruct (rev (dot_text (b :: l))); [discriminate|exact IH].
Qed.
Lemma path_yes p ts s :
  path p -> W (p :: ts) s -> next ts <> Some "." -> exists r, path_text s = Yes p r /\ G ts r.
Proof.
  intros (l & (N & F) & ->) H D. destruct l as [|a l]; [congruence|].
  destruct (W_inv _ _ _ H) as (_ & r & -> & A). exists r. split; [|apply (after_G _ _ _ A)].
  assert (S : starts ident_other r = false).
  { destruct A as (g & q & -> & Fg & Ap & Hq). destruct Fg as [|x g O Fg].
    - cbn [app]. destruct ts as [|u ts]; [rewrite (W_nil _ Hq); reflexivity|].
      destruct (W_inv _ _ _ Hq) as ((c & t & -> & _) & z & -> & _). cbn.
      destruct (ident_other c) eqn:E; [|reflexivity]. exfalso.
      apply Ap; [apply dot_text_ends; exact F|exact E|reflexivity].
    - rewrite <- app_assoc. apply one_start. exact O. }
  unfold path_text, star.
  destruct (path_star l a (Datatypes.S (length (dot_text (a :: l) ++ r))) r F S) as (us & E).
  - apply (tok_no _ _ _ (after_G _ _ _ A) D).
  - pose proof (dot_text_len l a). rewrite app_length. lia.
  - rewrite E. cbn [andthen]. rewrite (id_app _ _ (last_name _ _ F) S). cbn [andthen].
    rewrite app_length, Nat.add_sub, firstn_app, firstn_all, Nat.sub_diag, firstn_O, app_nil_r.
    reflexivity.
Qed.
Lemma path_decl_yes p ts s :
  ok_opt path p -> G (opt_toks at_toks p ++ ts) s -> next ts <> Some "." -> next ts <> Some "@" ->
  exists r, path_decl s = Yes p r /\ G ts r.
Proof.
  intros O H N1 N2. unfold path_decl, opt. destruct p as [p|]; cbn [opt_toks] in H.
  - unfold at_toks in H. lst. destruct (tok_yes _ _ _ H) as (r & E & H1). rewrite E. cbn.
    destruct (path_yes _ _ _ O H1 N1) as (r2 & E2 & H2). rewrite E2. cbn. eauto.
  - rewrite (tok_no _ _ _ H N2). cbn. eauto.
Qed.
Lemma commas_cons a l ts : commas (a :: l) ++ ts = a :: (flat_map (fun b => [[","]; b]) l ++ ts).
Proof.
  revert a. induction l as [|b l IH]; intro a; [reflexivity|].
  change (commas (a :: b :: l)) with (a :: [","] :: commas (b :: l)). cbn [app flat_map].
  rewrite IH. reflexivity.
Qed.
Lemma comma_next (l : list text) ts c :
  next (flat_map (fun b => [[","]; b]) l ++ ts) = Some c -> c = "," \/ next ts = Some c.
Proof. destruct l; cbn; [tauto|]. intro X; injection X as <-; tauto. Qed.

(** ** Step by step *)
Ltac g_of H := first [exact H | exact (W_G _ _ H) | exact (after_G _ _ _ H)].
Ltac step_tok H :=
  let r := fresh "r" in let E := fresh "E" in let H' := fresh "H" in
  match type of H with
  | G ([?c] :: ?ts) ?s => destruct (tok_yes c ts s H) as (r & E & H')
  | W ([?c] :: ?ts) ?s => destruct (tok_yes c ts s (W_G _ _ H)) as (r & E & H')
  | After _ ([?c] :: ?ts) ?s => destruct (tok_yes c ts s (after_G _ _ _ H)) as (r & E & H')
  end; rewrite E; cbn [andthen must]; clear E H; rename H' into H.
Ltac step_id H N :=
  let r := fresh "r" in let E := fresh "E" in let H' := fresh "H" in
  destruct (id_yes _ _ _ N H) as (r & E & H'); rewrite E; cbn [andthen must]; clear E H;
  rename H' into H.
Ltac step_scoped H N :=
  let r := fresh "r" in let E := fresh "E" in let H' := fresh "H" in
  destruct (scoped_yes _ _ _ N H) as (r & E & H');
  [try (cbn; discriminate)|rewrite E; cbn [andthen must]; clear E H; rename H' into H].
Ltac step_kw H k :=
  let r := fresh "r" in let E := fresh "E" in let H' := fresh "H" in
  match type of H with
  | G (_ :: ?ts) ?s => destruct (keyword_yes k ts s ltac:(kw_word) H) as (r & E & H')
  | W (_ :: ?ts) ?s => destruct (keyword_yes k ts s ltac:(kw_word) (W_G _ _ H)) as (r & E & H')
  end; rewrite E; cbn [andthen must]; clear E H; rename H' into H.

Lemma handlers_yes l ts s :
  l <> [] -> Forall path l -> G (handlers_toks l ++ ts) s ->
  exists r, handlers_decl s = Yes l r /\ W ts r.
Proof.
  intros N F H. destruct l as [|a l]; [congruence|]. inversion F; subst.
  unfold handlers_toks in H. lst. rewrite commas_cons in H. unfold handlers_decl.
  step_tok H. step_kw H "handlers"%string. step_tok H.
  destruct (path_yes _ _ _ H2 H) as (r2 & E2 & K).
  { intro X. apply comma_next in X. destruct X as [X|X]; discriminate. }
  rewrite E2. cbn [andthen must].
  destruct (star_yes2 (fun s => do c, r <- tok "," s; path_text r) (fun b => [[","]; b]) G G_len
              (["]"] :: [";"] :: ["}"] :: ts) l r2) as (r3 & E3 & K3).
  - intros x l2 q I Hq. cbn [app] in Hq.
    destruct (tok_yes _ _ _ Hq) as (q2 & Eq & Wq). rewrite Eq. cbn [andthen].
    rewrite Forall_forall in H3. destruct (path_yes _ _ _ (H3 _ I) Wq) as (q3 & E3 & K3).
    { intro X. apply comma_next in X. destruct X as [X|X]; discriminate. }
    rewrite E3. eauto.
  - intros q Hq. rewrite (tok_no _ _ _ Hq) by (cbn; discriminate). reflexivity.
  - intros; discriminate.
  - exact K.
  - rewrite E3. cbn [andthen must]. unfold opt. rewrite (tok_no _ _ _ K3) by (cbn; discriminate).
    cbn [andthen must]. step_tok K3. step_tok K3. step_tok K3. eauto.
Qed.

Lemma handlers_opt_yes h ts s :
  ok_opt (fun l => l <> [] /\ Forall path l) h -> G (opt_toks handlers_toks h ++ ts) s ->
  next ts <> Some "{" -> exists r, opt handlers_decl s = Yes h r /\ G ts r.
Proof.
  intros O H N. unfold opt. destruct h as [l|]; cbn [opt_toks ok_opt] in *.
  - destruct O as (O1 & O2). destruct (handlers_yes _ _ _ O1 O2 H) as (r & E & K). rewrite E.
    exists r. split; [reflexivity|]. apply W_G. exact K.
  - unfold handlers_decl. rewrite (tok_no _ _ _ H N). cbn. eauto.
Qed.
Lemma at_next p ts c : next (opt_toks at_toks p ++ [";"] :: ts) = Some c -> c = "@" \/ c = ";".
Proof. destruct p; cbn; intro X; injection X as <-; tauto. Qed.
Lemma hs_next p ts c : next (opt_toks handlers_toks p ++ [";"] :: ts) = Some c -> c = "{" \/ c = ";".
Proof. destruct p; cbn; intro X; injection X as <-; tauto. Qed.
Ltac step_path H O :=
  let r := fresh "r" in let E := fresh "E" in let H' := fresh "H" in
  destruct (path_decl_yes _ _ _ O H) as (r & E & H');
  [cbn; discriminate|cbn; discriminate|rewrite E; cbn [andthen must]; clear E H; rename H' into H].

(** A keyword that is not the one that comes next. *)
Lemma kw_no k k2 ts s :
  word (chars k) -> word (chars k2) -> chars k2 <> chars k -> G (chars k2 :: ts) s -> keyword k s = No.
Proof. intros A B D H. apply (keyword_no k _ _ A H). right. auto. Qed.
Ltac not_kw H k :=
  match type of H with
  | G (chars ?k2 :: ?ts) ?s =>
      rewrite (kw_no k k2 ts s ltac:(kw_word) ltac:(kw_word) ltac:(vm_compute; discriminate) H)
  end.

Definition fn_decl (s : text) : pres portal_fn :=
  orelse (sizer_decl s) (orelse (encoder_decl s) (decoder_decl s)).
Lemma fn_yes f ts s : ok_fn f -> G (fn_toks f ++ ts) s -> exists r, fn_decl s = Yes f r /\ G ts r.
Proof.
  intros O H. unfold fn_decl, sizer_decl, encoder_decl, decoder_decl.
  destruct f as [n u t p|n t p|n t h]; cbn [fn_toks ok_fn] in *; lst; destruct O as (O1 & O2 & O3).
  - step_kw H "sizer"%string. step_id H O1. apply after_G in H.
    destruct (flag_yes "round_up" u _ _ ltac:(kw_word) H) as (q & E & K).
    { intros _. left. reflexivity. }
    rewrite E. cbn [andthen must]. step_tok K.
    step_scoped K O2. { intro X. apply at_next in X. destruct X; discriminate. }
    step_path K O3. step_tok K. cbn. eauto using W_G.
  - not_kw H "sizer"%string. cbn [andthen orelse].
    step_kw H "encoder"%string. step_id H O1. step_tok H.
    step_scoped H O2. { intro X. apply at_next in X. destruct X; discriminate. }
    step_path H O3. step_tok H. cbn. eauto using W_G.
  - not_kw H "sizer"%string. not_kw H "encoder"%string. cbn [andthen orelse].
    step_kw H "decoder"%string. step_id H O1. step_tok H.
    step_scoped H O2. { intro X. apply hs_next in X. destruct X; discriminate. }
    destruct (handlers_opt_yes _ _ _ O3 H) as (q & E & K); [cbn; discriminate|].
    rewrite E. cbn [andthen must]. step_tok K. cbn. eauto using W_G.
Qed.
Lemma fn_no ts s : G (["}"] :: ts) s -> fn_decl s = No.
Proof.
  intro H. unfold fn_decl, sizer_decl, encoder_decl, decoder_decl.
  rewrite !(fun k K => keyword_no k _ _ K H (or_introl eq_refl)) by kw_word. reflexivity.
Qed.

(** ** Bodies *)
Lemma body_yes {A B} k (p : text -> pres A) (f : A -> list text) (mk : text -> bool -> list A -> B)
      (P : A -> Prop) n e l ts s :
  word (chars k) ->
  (forall x us q, P x -> W (f x ++ us) q -> exists r, p q = Yes x r /\ W us r) ->
  (forall us q, W (["}"] :: us) q -> p q = No) -> (forall x, f x <> []) ->
  name n -> Forall P l -> G (body_toks k f n e l ++ ts) s ->
  exists r, composite k p mk s = Yes (mk n e l) r /\ W ts r.
Proof.
  intros K Py Pn Pf On Ol H. unfold body_toks in H. lst. unfold composite.
  destruct (keyword_yes k _ s K H) as (r & E & H1). rewrite E. cbn [andthen]. clear H.
  step_id H1 On. apply after_G in H1.
  destruct (flag_yes "external" e _ _ ltac:(kw_word) H1) as (q & Eq & Kq).
  { intros _. left. reflexivity. }
  rewrite Eq. cbn [andthen must]. step_tok Kq.
  destruct (star_yes p f W spaced_len (["}"] :: ts) l r1) as (r2 & E2 & H2).
  - intros x us z I Hz. rewrite Forall_forall in Ol. apply Py; auto.
  - intros z Hz. apply (Pn _ _ Hz).
  - intros x _. apply Pf.
  - exact Kq.
  - rewrite E2. cbn [andthen must]. step_tok H2. eauto.
Qed.
Lemma id_brace us q : W (["}"] :: us) q -> id q = No.
Proof. intro H. apply (id_no _ _ H). cbn. intros c X. injection X as <-. reflexivity. Qed.

(** ** Language texts *)
Lemma lit_prefix k : forall x s, length k <= length x -> lit k (x ++ s) <> None -> lit k x <> None.
Proof.
  induction k as [|c k IH]; intros x s L H; [destruct x; discriminate|].
  destruct x as [|d x]; [cbn in L; lia|]. cbn [lit app] in *.
  destruct (Ascii.eqb c d); [|congruence]. apply (IH x s); [cbn in L; lia|exact H].
Qed.
Lemma lit_quotes_len b s : lit quotes (b ++ quotes ++ s) <> None -> lit quotes (b ++ quotes) <> None.
Proof.
  rewrite app_assoc. apply lit_prefix. rewrite app_length. cbn. lia.
Qed.
Lemma until_yes b s : quotable b -> until_quotes (b ++ quotes ++ s) = Some (b, s).
Proof.
  induction b as [|c b IH]; intro Q.
  - cbn [app]. unfold quotes. reflexivity.
  - cbn [app until_quotes].
    destruct (lit quotes (c :: b ++ quotes ++ s)) as [r|] eqn:E.
    + exfalso. pose proof (lit_quotes_len (c :: b) s) as L. cbn [app] in L. rewrite E in L.
      destruct (lit quotes (c :: b ++ quotes)) as [y|] eqn:E2; [|apply L; [discriminate|reflexivity]].
      apply lit_sound in E2. pose proof (Q [] y E2) as Y. subst y.
      apply (f_equal (@length ascii)) in E2. cbn in E2. rewrite !app_length in E2. cbn in E2. lia.
    + rewrite IH; [reflexivity|]. intros x y X. apply (Q (c :: x) y). cbn. rewrite X. reflexivity.
Qed.
Definition J (ts : list text) (s : text) : Prop := G ts s /\ (ts = [] -> s = []).
Lemma J_len ts s : J ts s -> length ts <= length s.
Proof. intros (H & _). apply G_len. exact H. Qed.
Lemma W_J ts s : W ts s -> J ts s.
Proof. intro H. split; [apply W_G; exact H|]. intros ->. apply W_nil. exact H. Qed.
Lemma literal_yes n b ts r :
  quotable b -> After n ((quotes ++ b ++ quotes) :: ts) r ->
  exists q, literal r = Yes b q /\ J ts q.
Proof.
  intros Q (g & z & -> & F & (_ & A) & H). unfold literal. rewrite (one_step g) by (apply A; reflexivity).
  destruct (W_inv _ _ _ H) as (_ & q & -> & K). rewrite <- app_assoc, lit_app, <- app_assoc, (until_yes _ _ Q).
  exists q. split; [reflexivity|]. split; [apply (after_G _ _ _ K)|].
  intros ->. destruct K as (g2 & z2 & -> & F2 & A2 & H2). rewrite (A2 eq_refl), (W_nil _ H2). reflexivity.
Qed.

(** ** Declarations *)
Ltac first_tok :=
  unfold import_decl, composite, spec_decl, type_decl, language_decl, portal_decl, precomp_decl.
Lemma top_no us s fuel : G us s -> (us = [] \/ exists ts, us = ["}"] :: ts) -> top_decl fuel s = No.
Proof.
  intros H D. assert (X : forall k, word (chars k) -> keyword k s = No).
  { intros k K. apply (keyword_no k _ _ K H). destruct D as [->|(ts & ->)]; [exact I|]. left. reflexivity. }
  destruct fuel; cbn [top_decl]; first_tok; rewrite !X by kw_word; reflexivity.
Qed.
Lemma top_yes n : forall d fuel ts s,
  length (decl_toks d) <= n -> n <= fuel -> ok_decl d -> J (decl_toks d ++ ts) s ->
  exists r, top_decl fuel s = Yes d r /\ J ts r.
Proof.
  induction n as [|n IH]; intros d fuel ts s L Lf O (H & _).
  { destruct d; cbn in L; lia. }
  destruct fuel as [|fuel]; [lia|].
  destruct d as [i|m e l|m e l|m e l|m h p|m e t|m ds|m b|m p l|m t p]; cbn [decl_toks ok_decl] in *.
  - clear IH. lst. cbn [top_decl]. unfold import_decl. step_kw H "import"%string. step_scoped H O. step_tok H.
    cbn [orelse]. eauto using W_J.
  - destruct O as (O1 & O2).
    destruct (body_yes "struct" field_decl field_toks DStruct ok_field m e l ts s) as (r & E & K);
      [kw_word|intros; apply field_yes; assumption|intros us q Hq; unfold field_decl; rewrite (id_brace _ _ Hq); reflexivity
      |intro; discriminate|exact O1|exact O2|exact H|].
    cbn [top_decl]. rewrite E. unfold body_toks in H. lst. first_tok. not_kw H "import"%string.
    cbn [andthen orelse]. eauto using W_J.
  - destruct O as (O1 & O2).
    destruct (body_yes "variant" variant_field vfield_toks DVariant ok_vfield m e l ts s) as (r & E & K);
      [kw_word|intros; apply vfield_yes; assumption|intros us q Hq; unfold variant_field; rewrite (id_brace _ _ Hq); reflexivity
      |intro; discriminate|exact O1|exact O2|exact H|].
    cbn [top_decl]. rewrite E. unfold body_toks in H. lst. first_tok. not_kw H "import"%string. not_kw H "struct"%string.
    cbn [andthen orelse]. eauto using W_J.
  - destruct O as (O1 & O2).
    destruct (body_yes "enum" enum_field vfield_toks DEnum (fun f => ok_vfield f /\ vf_type f = None) m e l ts s) as (r & E & K);
      [kw_word|intros; apply efield_yes; assumption|intros us q Hq; unfold enum_field; rewrite (id_brace _ _ Hq); reflexivity
      |intro; discriminate|exact O1|exact O2|exact H|].
    cbn [top_decl]. rewrite E. unfold body_toks in H. lst. first_tok. not_kw H "import"%string. not_kw H "struct"%string.
    not_kw H "variant"%string. cbn [andthen orelse]. eauto using W_J.
  - clear IH. destruct O as (O1 & O2 & O3). lst. cbn [top_decl]. first_tok.
    not_kw H "import"%string. not_kw H "struct"%string. not_kw H "variant"%string. not_kw H "enum"%string. cbn [andthen orelse].
    step_kw H "specification"%string. step_id H O1. step_tok H. step_scoped H O2.
    { intro X. apply at_next in X. destruct X; discriminate. }
    step_path H O3. step_tok H. cbn [orelse]. eauto using W_J.
  - clear IH. destruct O as (O1 & O2). lst. cbn [top_decl]. first_tok.
    not_kw H "import"%string. not_kw H "struct"%string. not_kw H "variant"%string. not_kw H "enum"%string.
    not_kw H "specification"%string. cbn [andthen orelse].
    step_kw H "type"%string. step_id H O1. apply after_G in H.
    destruct (flag_yes "external" e _ _ ltac:(kw_word) H) as (q & Eq & Kq).
    { intros _. left. reflexivity. }
    rewrite Eq. cbn [andthen must]. step_tok Kq.
    destruct (type_yes _ _ _ O2 Kq) as (q2 & E2 & K2); [cbn; discriminate|cbn; discriminate|].
    rewrite E2. cbn [andthen must]. step_tok K2. cbn [orelse]. eauto using W_J.
  - destruct O as (O1 & O2). lst. cbn [top_decl]. first_tok.
    not_kw H "import"%string. not_kw H "struct"%string. not_kw H "variant"%string. not_kw H "enum"%string.
    not_kw H "specification"%string. not_kw H "type"%string. cbn [andthen orelse].
    step_kw H "space"%string. step_id H O1. step_tok H.
    destruct (star_yes (top_decl fuel) decl_toks J J_len (["}"] :: ts) ds r1) as (r2 & E2 & H2).
    + intros x us q Ix Hq. apply (IH x fuel us q).
      * cbn [length] in L. rewrite !app_length in L. cbn [length] in L.
        assert (X : length (decl_toks x) <= length (flat_map decl_toks ds)).
        { clear - Ix. induction ds as [|y ds IH]; [destruct Ix|]. cbn [flat_map]. rewrite app_length.
          destruct Ix as [->|Ix]; [lia|]. specialize (IH Ix). lia. }
        lia.
      * lia.
      * clear - O2 Ix. induction ds as [|y ds IH]; [destruct Ix|]. destruct O2 as (A & B).
        destruct Ix as [->|Ix]; auto.
      * exact Hq.
    + intros q (Hq & _). apply (top_no _ _ _ Hq). eauto.
    + intros x _. destruct x; discriminate.
    + apply W_J. exact H.
    + rewrite E2. cbn [andthen must]. destruct H2 as (H2 & _). step_tok H2. cbn [orelse]. eauto using W_J.
  - clear IH. destruct O as (O1 & O2). lst. cbn [top_decl]. first_tok.
    not_kw H "import"%string. not_kw H "struct"%string. not_kw H "variant"%string. not_kw H "enum"%string.
    not_kw H "specification"%string. not_kw H "type"%string. not_kw H "space"%string. cbn [andthen orelse].
    step_kw H "language"%string. step_id H O1.
    destruct (literal_yes _ _ _ _ O2 H) as (q & E & K). rewrite E. cbn. eauto.
  - clear IH. destruct O as (O1 & O2 & O3). lst. cbn [top_decl]. first_tok.
    not_kw H "import"%string. not_kw H "struct"%string. not_kw H "variant"%string. not_kw H "enum"%string.
    not_kw H "specification"%string. not_kw H "type"%string. not_kw H "space"%string. not_kw H "language"%string. cbn [andthen orelse].
    step_kw H "portal"%string. step_id H O1. step_tok H. step_scoped H O2. step_tok H.
    destruct (star_yes fn_decl fn_toks G G_len (["}"] :: ts) l r3) as (q & E & K).
    + intros x us z Ix Hz. rewrite Forall_forall in O3. apply fn_yes; auto.
    + intros z Hz. apply (fn_no _ _ Hz).
    + intros x _. destruct x; discriminate.
    + apply W_G. exact H.
    + unfold fn_decl in E. rewrite E. cbn [andthen must]. step_tok K. cbn [orelse]. eauto using W_J.
  - clear IH. destruct O as (O1 & O2 & O3). lst. cbn [top_decl]. first_tok.
    not_kw H "import"%string. not_kw H "struct"%string. not_kw H "variant"%string. not_kw H "enum"%string.
    not_kw H "specification"%string. not_kw H "type"%string. not_kw H "space"%string. not_kw H "language"%string.
    not_kw H "portal"%string. cbn [andthen orelse].
    step_kw H "precompile"%string. step_id H O1. step_tok H. step_scoped H O2. step_tok H.
    step_scoped H O3. step_tok H. step_tok H. eauto using W_J.
Qed.

(** ** All tokens start with no space *)
Lemma solid_other c r : ident_other c = true -> solid (c :: r).
Proof.
  intro H. destruct (other_stop c r H) as [X|X]; [discriminate|]. exact X.
Qed.
Lemma solid_name n : name n -> solid n.
Proof. intros (N & _). destruct n as [|c n]; [discriminate|]. apply solid_other, first_other, N. Qed.
Lemma solid_digits d : digits d -> solid d.
Proof.
  intros (N & D). destruct d as [|c d]; [congruence|]. cbn in D. apply andb_prop in D.
  apply solid_other, digit_other, D.
Qed.
Lemma solid_path p : path p -> solid p.
Proof.
  intros (l & (N & F) & ->). destruct (dot_text_stop l [] N F) as [X|X]; rewrite app_nil_r in X.
  - exfalso. destruct l as [|a l]; [congruence|]. inversion F; subst. destruct H1 as (H1 & _).
    destruct a; [discriminate|]. destruct l; discriminate.
  - exact X.
Qed.
Ltac solid_const := eexists _, _; split; [reflexivity|]; split; [reflexivity|discriminate].
Ltac solids :=
  repeat match goal with
  | |- Forall _ (_ ++ _) => apply Forall_app; split
  | |- Forall _ (_ :: _) => constructor
  | |- Forall _ [] => constructor
  | |- Forall _ (kw _) => constructor; [|constructor]
  | |- Forall _ (p1 _) => constructor; [|constructor]
  | |- Forall _ (flag_toks _ ?b) => destruct b; cbn [flag_toks]
  | |- solid (chars _) => solid_const
  | |- solid [_] => solid_const
  | |- solid ?n => first [apply solid_name; assumption|apply solid_digits; assumption
                         |apply solid_path; assumption]
  end.
Lemma solid_dotted l : names l -> Forall solid (dotted l).
Proof.
  intros (N & F). destruct l as [|a l]; [congruence|]. rewrite <- (app_nil_r (dotted _)), dotted_cons.
  inversion F; subst. constructor; [apply solid_name; assumption|]. rewrite app_nil_r.
  clear - H2. induction H2; cbn; solids. exact IHForall.
Qed.
Lemma solid_commas l : Forall path l -> Forall solid (commas l).
Proof.
  intro F. destruct l as [|a l]; [constructor|]. rewrite <- (app_nil_r (commas _)), commas_cons.
  inversion F; subst. constructor; [apply solid_path; assumption|]. rewrite app_nil_r.
  clear - H2. induction H2; cbn; solids. exact IHForall.
Qed.
Lemma solid_flat {A} (P : A -> Prop) (f : A -> list text) l :
  (forall x, P x -> Forall solid (f x)) -> Forall P l -> Forall solid (flat_map f l).
Proof. intros H F. induction F; cbn; [constructor|]. apply Forall_app; auto. Qed.
Lemma solid_opt {A} (P : A -> Prop) (f : A -> list text) o :
  (forall x, P x -> Forall solid (f x)) -> ok_opt P o -> Forall solid (opt_toks f o).
Proof. intros H O. destruct o; cbn in *; [auto|constructor]. Qed.
Lemma solid_mod m : ok_mod m -> Forall solid (mod_toks m).
Proof.
  destruct m as [d|a b]; cbn [ok_mod mod_toks]; intro O; [solids|].
  destruct O as (A & B). solids; apply (solid_opt digits); auto; intros; solids.
Qed.
Lemma solid_type t : ok_type t -> Forall solid (type_toks t).
Proof.
  intros (B & M). unfold type_toks. apply Forall_app. split.
  - destruct (t_base t); cbn [base_toks ok_base] in *; solids; try solid_const.
    apply solid_dotted. tauto.
  - apply (solid_flat ok_mod); [apply solid_mod|exact M].
Qed.
Lemma solid_field f : ok_field f -> Forall solid (field_toks f).
Proof. intros (N & T). unfold field_toks. solids. apply solid_type. exact T. Qed.
Lemma solid_tag t : ok_tag t -> Forall solid (tag_toks t).
Proof. intro O. unfold tag_toks. destruct t; cbn in O; solids; try solid_const. Qed.
Lemma solid_vfield f : ok_vfield f -> Forall solid (vfield_toks f).
Proof.
  intros (N & T & G0). unfold vfield_toks. solids; try solid_const.
  all: try (apply (solid_opt ok_type); [|exact T]; intros x X; solids; apply solid_type; exact X).
  all: apply (solid_opt ok_tag); [apply solid_tag|exact G0].
Qed.
Lemma solid_at p : ok_opt path p -> Forall solid (opt_toks at_toks p).
Proof. apply solid_opt. intros x X. unfold at_toks. solids. Qed.
Lemma solid_fn f : ok_fn f -> Forall solid (fn_toks f).
Proof.
  destruct f as [n u t p|n t p|n t h]; cbn [fn_toks ok_fn]; intros (A & B & C); solids;
    try apply solid_dotted; try apply solid_at; try assumption.
  apply (solid_opt (fun l => l <> [] /\ Forall path l)); [|exact C]. intros l (_ & F).
  unfold handlers_toks. solids. apply solid_commas. exact F.
Qed.
Lemma solid_decl n : forall d, length (decl_toks d) <= n -> ok_decl d -> Forall solid (decl_toks d).
Proof.
  induction n as [|n IH]; intros d L O; [destruct d; cbn in L; lia|].
  destruct d as [i|m e l|m e l|m e l|m h p|m e t|m ds|m b|m p l|m t p]; cbn [decl_toks ok_decl] in *;
    try (destruct O as (O1 & O2)); try (destruct O2 as (O2 & O3)); unfold body_toks; solids;
    try apply solid_dotted; try apply solid_at; try apply solid_type; try assumption;
    try solid_const.
  - split; assumption.
  - apply (solid_flat ok_field); [apply solid_field|assumption].
  - apply (solid_flat ok_vfield); [apply solid_vfield|assumption].
  - apply (solid_flat (fun f => ok_vfield f /\ vf_type f = None)); [intros x X; apply solid_vfield; tauto|assumption].
  - split; assumption.
  - assert (L2 : length (flat_map decl_toks ds) <= n).
    { cbn [length kw p1 app] in L. rewrite !app_length in L. cbn [length] in L. lia. }
    clear L O1. induction ds as [|d ds IHd]; cbn [flat_map]; [constructor|].
    destruct O2 as (A & B). cbn [flat_map] in L2. rewrite app_length in L2.
    apply Forall_app. split; [apply IH; [lia|exact A]|apply IHd; [exact B|lia]].
  - apply (solid_flat ok_fn); [apply solid_fn|assumption].
Qed.
Lemma All_in {A} (P : A -> Prop) l : All P l -> forall x, In x l -> P x.
Proof. induction l as [|y l IH]; intros H x []; destruct H; subst; auto. Qed.
Lemma solid_all ds : All ok_decl ds -> Forall solid (flat_map decl_toks ds).
Proof.
  induction ds as [|d ds IH]; intro H; cbn [flat_map]; [constructor|]. destruct H as (A & B).
  apply Forall_app. split; [apply (solid_decl _ d (le_n _) A)|apply IH; exact B].
Qed.

Lemma C49_read_proof : forall ds s, All ok_decl ds -> file_of ds s -> parse_text s = Some ds.
Proof.
  intros ds s O (g & r & -> & F & N & H). unfold parse_text.
  assert (Hw : W (flat_map decl_toks ds) r) by (split; [exact H|apply solid_all; exact O]).
  assert (HG : J (flat_map decl_toks ds) (g ++ r)).
  { split; [exists g, r; auto|]. intro E. destruct ds as [|d ds]; [|destruct d; discriminate].
    rewrite (N eq_refl). cbn in Hw. rewrite (W_nil _ Hw). reflexivity. }
  destruct (star_yes (top_decl (length (g ++ r))) decl_toks J J_len [] ds (g ++ r)) as (q & E & K).
  - intros x us z Ix Hz. apply (top_yes (length (decl_toks x)) x); auto.
    + pose proof (J_len _ _ HG) as L.
      assert (X : length (decl_toks x) <= length (flat_map decl_toks ds)).
      { clear - Ix. induction ds as [|y ds IH]; [destruct Ix|]. cbn [flat_map]. rewrite app_length.
        destruct Ix as [->|Ix]; [lia|]. specialize (IH Ix). lia. }
      lia.
    + apply (All_in _ _ O _ Ix).
  - intros z (Hz & _). apply (top_no _ _ _ Hz). auto.
  - intros x _. destruct x; discriminate.
  - rewrite app_nil_r. exact HG.
  - rewrite E. destruct K as (_ & K). rewrite (K eq_refl). reflexivity.
Qed.
