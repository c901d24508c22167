(** What the parser reads: names are identifiers and numbers are digits.  Proofs for C49. *)
From Coq Require Import Ascii String List Bool Arith.
From Verif Require Import Grammar GrammarSpec.
Import ListNotations.
Local Open Scope char_scope.

(** As [ok_decl] (GrammarSpec.v) but for the texts of paths, which may have blanks in them, and the
    texts of other languages. *)
Definition legible_base (b : base) : Prop :=
  match b with
  | BUint d | BInt d | BChar d | BFloat d => digits d
  | BAny => True
  | BRef n => names n
  end.
Definition legible_type (t : texpr) : Prop := legible_base (t_base t) /\ Forall ok_mod (t_mods t).
Definition legible_field (f : text * texpr) : Prop := name (fst f) /\ legible_type (snd f).
Definition legible_vfield (f : vfield) : Prop :=
  name (vf_name f) /\ ok_opt legible_type (vf_type f) /\ ok_opt ok_tag (vf_tag f).
Definition legible_fn (f : portal_fn) : Prop :=
  match f with
  | Sizer n _ t _ | Encoder n t _ | Decoder n t _ => name n /\ names t
  end.
Fixpoint legible (d : decl) : Prop :=
  match d with
  | DImport n => names n
  | DStruct n _ l => name n /\ Forall legible_field l
  | DVariant n _ l => name n /\ Forall legible_vfield l
  | DEnum n _ l => name n /\ Forall (fun f => legible_vfield f /\ vf_type f = None) l
  | DSpec n h _ => name n /\ names h
  | DType n _ t => name n /\ legible_type t
  | DSpace n ds => name n /\ All legible ds
  | DLanguage n _ => name n
  | DPortal n p l => name n /\ names p /\ Forall legible_fn l
  | DPrecomp n t p => name n /\ names t /\ names p
  end.

Definition gives {A} (P : A -> Prop) (x : pres A) : Prop :=
  match x with Yes a _ => P a | _ => True end.
Lemma gives_bind {A B} (P : A -> Prop) (Q : B -> Prop) x (f : A -> text -> pres B) :
  gives P x -> (forall a r, P a -> gives Q (f a r)) -> gives Q (andthen x f).
Proof. destruct x; cbn; auto. Qed.
Lemma gives_any {A} (x : pres A) : gives (fun _ => True) x.
Proof. destruct x; cbn; auto. Qed.
Lemma gives_must {A} (P : A -> Prop) x : gives P x -> gives P (must x).
Proof. destruct x; cbn; auto. Qed.
Lemma gives_orelse {A} (P : A -> Prop) x y : gives P x -> gives P y -> gives P (orelse x y).
Proof. destruct x; cbn; auto. Qed.
Lemma gives_map {A B} (P : A -> Prop) (Q : B -> Prop) (f : A -> B) x :
  gives P x -> (forall a, P a -> Q (f a)) -> gives Q (map_pres f x).
Proof. destruct x; cbn; auto. Qed.
Lemma gives_opt {A} (P : A -> Prop) p s : gives P (p s) -> gives (ok_opt P) (opt p s).
Proof. unfold opt. destruct (p s); cbn; auto. Qed.
Lemma gives_star {A} (P : A -> Prop) p s : (forall s, gives P (p s)) -> gives (Forall P) (star p s).
Proof.
  intro H. unfold star. generalize (S (length s)). intro n. revert s.
  induction n as [|n IH]; intro s; cbn; auto.
  specialize (H s). destruct (p s) as [a r| |]; cbn in *; auto.
  specialize (IH r). destruct (star_f n p r); cbn in *; auto.
Qed.

Lemma span_fst p s : forallb p (fst (span p s)) = true.
Proof.
  induction s as [|c r IH]; cbn [span]; auto. destruct (p c) eqn:E; auto.
  destruct (span p r). cbn [fst forallb] in *. rewrite E. auto.
Qed.
Lemma id_gives s : gives name (id s).
Proof.
  unfold id. destruct (starts ident_first s) eqn:E; cbn; auto.
  pose proof (span_fst ident_other s) as F. destruct (span ident_other s) as [a r] eqn:SP.
  cbn in *. split; auto. destruct s as [|c s]; [discriminate|]. cbn in SP, E.
  assert (O : ident_other c = true) by (unfold ident_other; rewrite E; auto). rewrite O in SP.
  destruct (span ident_other s). injection SP as <- <-. auto.
Qed.
Lemma num_gives s : gives digits (num s).
Proof.
  unfold num. pose proof (span_fst is_digit s) as F. destruct (span is_digit s) as [[|c d] r];
    cbn [gives fst] in *; auto. split; [discriminate|auto].
Qed.
Lemma suffix_gives s : gives name (id_suffix s).
Proof.
  unfold id_suffix. eapply gives_bind; [apply gives_any|]. intros. apply gives_must, id_gives.
Qed.
Lemma scoped_gives s : gives names (scoped_id s).
Proof.
  unfold scoped_id. eapply gives_bind; [apply gives_must, id_gives|]. intros a r N.
  eapply gives_bind; [apply gives_star, suffix_gives|]. intros l r2 L. cbn. split; [discriminate|].
  auto.
Qed.
Lemma prefixed_gives k s : gives digits (prefixed k s).
Proof. unfold prefixed. destruct (lit (chars k) s); [apply num_gives|exact I]. Qed.
Lemma base_gives s : gives legible_base (base_type s).
Proof.
  unfold base_type.
  repeat (apply gives_orelse;
          [first [eapply gives_map; [apply prefixed_gives|auto]
                 |eapply gives_map; [apply gives_any|intros; exact I]]|]).
  eapply gives_map; [apply scoped_gives|auto].
Qed.
Lemma modif_gives s : gives ok_mod (modif s).
Proof.
  unfold modif. apply gives_orelse.
  - unfold fixed_mod. eapply gives_bind; [apply gives_any|]. intros _ r _.
    eapply gives_bind; [apply num_gives|]. intros d r2 D.
    eapply gives_bind; [apply gives_any|]. intros; exact D.
  - unfold var_mod. eapply gives_bind; [apply gives_any|]. intros _ r _.
    eapply gives_bind; [apply gives_opt, num_gives|]. intros a r2 A.
    eapply gives_bind; [apply gives_any|]. intros _ r3 _.
    eapply gives_bind; [apply gives_opt, num_gives|]. intros b r4 B.
    eapply gives_bind; [apply gives_any|]. intros; cbn; auto.
Qed.
Lemma type_gives s : gives legible_type (type_expr s).
Proof.
  unfold type_expr. eapply gives_bind; [apply base_gives|]. intros b r B.
  eapply gives_bind; [apply gives_star, modif_gives|]. intros l r2 L. split; auto.
Qed.
Ltac any := eapply gives_bind; [apply gives_any|]; intros.
Ltac one L := eapply gives_bind; [try apply gives_must; apply L|]; intros.
Lemma field_gives s : gives legible_field (field_decl s).
Proof. unfold field_decl. one id_gives. any. one type_gives. any. split; auto. Qed.
Lemma tag_gives s : gives (ok_opt ok_tag) (tag_decl s).
Proof.
  unfold tag_decl. apply gives_opt. any. apply gives_must. apply gives_orelse.
  - eapply gives_map; [apply num_gives|auto].
  - unfold char_tag. destruct r as [|x [|y [|z r]]]; try exact I. destruct (_ && _); exact I.
Qed.
Lemma vfield_gives s : gives legible_vfield (variant_field s).
Proof.
  unfold variant_field. one id_gives.
  eapply gives_bind with (P := ok_opt legible_type).
  { apply gives_must, gives_opt. any. apply type_gives. }
  intros. one tag_gives. any. any. split; auto.
Qed.
Lemma efield_gives s : gives (fun f => legible_vfield f /\ vf_type f = None) (enum_field s).
Proof.
  unfold enum_field. one id_gives. one tag_gives. any. any. split; [split|]; cbn; auto.
Qed.
Lemma composite_gives {A} (P : A -> Prop) k f mk s :
  (forall s, gives P (f s)) -> (forall n e l, name n -> Forall P l -> legible (mk n e l)) ->
  gives legible (composite k f mk s).
Proof.
  intros F M. unfold composite. any. one id_gives. any. any.
  eapply gives_bind; [apply gives_must, gives_star, F|]. intros. any. cbn. auto.
Qed.
Lemma fn_gives s : gives legible_fn (orelse (sizer_decl s) (orelse (encoder_decl s) (decoder_decl s))).
Proof.
  repeat apply gives_orelse.
  - unfold sizer_decl. any. one id_gives. any. any. one scoped_gives. any. any. cbn; auto.
  - unfold encoder_decl. any. one id_gives. any. one scoped_gives. any. any. cbn; auto.
  - unfold decoder_decl. any. one id_gives. any. one scoped_gives. any. any. cbn; auto.
Qed.
Lemma All_Forall {A} (P : A -> Prop) l : Forall P l -> All P l.
Proof. induction 1; cbn; auto. Qed.
Lemma top_gives n : forall s, gives legible (top_decl n s).
Proof.
  induction n as [|n IH]; intro s; cbn [top_decl]; repeat apply gives_orelse;
    try (eapply composite_gives; [first [apply field_gives|apply vfield_gives|apply efield_gives]|];
         cbn; auto; fail);
    try (unfold import_decl; any; one scoped_gives; any; cbn; auto; fail);
    try (unfold spec_decl; any; one id_gives; any; one scoped_gives; any; any; cbn; auto; fail);
    try (unfold type_decl; any; one id_gives; any; any; one type_gives; any; cbn; auto; fail);
    try (unfold language_decl; any; one id_gives; any; cbn; auto; fail);
    try (unfold precomp_decl; any; one id_gives; any; one scoped_gives; any; one scoped_gives;
         any; any; cbn; auto; fail);
    try (unfold portal_decl; any; one id_gives; any; one scoped_gives; any;
         eapply gives_bind; [apply gives_must, gives_star, fn_gives|]; intros; any; cbn; auto; fail).
  any. one id_gives. any. eapply gives_bind; [apply gives_must, gives_star, IH|]. intros.
  any. cbn. split; auto. apply All_Forall; auto.
Qed.
Lemma C49_legible_proof : forall s ds, parse_text s = Some ds -> All legible ds.
Proof.
  intros s ds H. unfold parse_text in H.
  pose proof (gives_star legible (top_decl (length s)) s (top_gives _)) as G.
  destruct (star _ s) as [l [|? ?]| |]; try discriminate. injection H as ->.
  apply All_Forall. exact G.
Qed.
