(** A file that meets the hypotheses of C49, and files that are not read. *)
From Coq Require Import Ascii String List Bool Arith Lia.
From Verif Require Import Grammar GrammarSpec GrammarFacts.
Import ListNotations.
Local Open Scope char_scope.

(** ** Writing a file *)
Inductive gap1 := Sp (c : ascii) | Com (b : string).
Definition gap1_text (g : gap1) : text :=
  match g with Sp c => [c] | Com b => "/" :: "/" :: chars b ++ [newline] end.
Definition gap1_ok (g : gap1) : bool :=
  match g with Sp c => is_space c | Com b => negb (existsb (Ascii.eqb newline) (chars b)) end.
Definition gap_text (g : list gap1) : text := flat_map gap1_text g.
Lemma gap1_filler g : gap1_ok g = true -> one_filler (gap1_text g).
Proof.
  destruct g as [c|b]; cbn; intro H; [apply One_space; exact H|]. apply One_comment.
  intro I. apply negb_true_iff in H. rewrite <- not_true_iff_false in H. apply H.
  apply existsb_exists. exists newline. split; [exact I|apply Ascii.eqb_refl].
Qed.
Fixpoint lay (l : list (text * list gap1)) : text :=
  match l with [] => [] | (t, g) :: r => t ++ gap_text g ++ lay r end.
Fixpoint lay_ok (l : list (text * list gap1)) : bool :=
  match l with
  | [] => true
  | (t, g) :: r =>
      forallb gap1_ok g &&
      match r with
      | [] => negb (quoted t) || match g with [] => true | _ => false end
      | (u, _) :: _ =>
          (negb (ends_word t && starts ident_other u) || match g with [] => false | _ => true end) &&
          (negb (quoted u) || match g with [_] => true | _ => false end)
      end && lay_ok r
  end.
Lemma gap_filler g : forallb gap1_ok g = true -> filler (gap_text g).
Proof.
  induction g as [|x g IH]; intro H; [constructor|]. cbn in H. apply andb_prop in H.
  cbn. apply Filler_cons; [apply gap1_filler|apply IH]; apply H.
Qed.
Lemma gap_nil g : gap_text g = [] -> g = [].
Proof. destruct g as [|[c|b] g]; [reflexivity|discriminate|discriminate]. Qed.
Lemma lay_spaced l : lay_ok l = true -> spaced (map fst l) (lay l).
Proof.
  induction l as [|(t, g) l IH]; intro H; [constructor|]. cbn [lay_ok] in H.
  apply andb_prop in H. destruct H as (H & H3). apply andb_prop in H. destruct H as (H1 & H2).
  cbn [map fst lay]. apply Spaced_cons; [apply gap_filler; exact H1| |apply IH; exact H3].
  destruct l as [|(u, g2) l]; cbn [apart map fst].
  - intro Q. rewrite Q in H2. destruct g; [reflexivity|discriminate].
  - apply andb_prop in H2. destruct H2 as (A & B). split.
    + intros E S X. rewrite E, S in A. apply gap_nil in X. subst g. discriminate.
    + intro Q. rewrite Q in B. destruct g as [|x [|y g]]; try discriminate.
      cbn. rewrite app_nil_r. apply gap1_filler. cbn in H1. apply andb_prop in H1. apply H1.
Qed.

Lemma until_first x y a r : until_quotes (x ++ quotes ++ y) = Some (a, r) -> length a <= length x.
Proof.
  revert a. induction x as [|c x IH]; intros a H.
  - cbn in H. injection H as <- _. cbn. lia.
  - cbn [app until_quotes] in H. destruct (lit quotes (c :: x ++ quotes ++ y)).
    { injection H as <- _. cbn. lia. }
    destruct (until_quotes (x ++ quotes ++ y)) as [[a2 r2]|] eqn:E; [|discriminate].
    injection H as <- <-. specialize (IH a2 eq_refl). cbn. lia.
Qed.
Lemma quotable_check b : until_quotes (b ++ quotes) = Some (b, []) -> quotable b.
Proof.
  intros H x y E. rewrite E in H. apply until_first in H. apply (f_equal (@length ascii)) in E.
  rewrite !app_length in E. destruct y; [reflexivity|]. cbn in E. lia.
Qed.

(** ** A name that starts like a built-in type cannot be referred to *)
Lemma C49_shadowed_proof : forall a f k d r s,
  name a -> name f -> In k ["uint"; "int"; "char"; "float"]%string -> digits d -> name r ->
  spaced (decl_toks (DStruct a false [(f, mkT (BRef [chars k ++ d ++ r]) [])])) s ->
  parse_text s = None.
Proof.
  intros a f k d r s Na Nf Ik D Nr H.
  assert (Hw : G (decl_toks (DStruct a false [(f, mkT (BRef [chars k ++ d ++ r]) [])])) s).
  { apply W_G. split; [exact H|]. cbn [decl_toks]. unfold body_toks, field_toks, type_toks.
    cbn [flat_map fst snd t_base t_mods base_toks dotted flag_toks].
    solids; cbn in Ik; destruct Ik as [<-|[<-|[<-|[<-|[]]]]]; solid_const. }
  assert (E : top_decl (length s) s = Abort).
  { cbn [decl_toks] in Hw. unfold body_toks, field_toks, type_toks in Hw.
    cbn [flat_map fst snd t_base t_mods base_toks dotted flag_toks kw p1 app] in Hw.
    assert (X : composite "struct" field_decl DStruct s = Abort).
    { unfold composite. step_kw Hw "struct"%string. step_id Hw Na. apply after_G in Hw.
      destruct (flag_yes "external" false _ _ ltac:(kw_word) Hw) as (q & Eq & Kq).
      { intros _. left. reflexivity. }
      rewrite Eq. cbn [andthen must]. step_tok Kq. unfold star. cbn [star_f].
      assert (Y : field_decl r2 = Abort).
      { unfold field_decl. step_id Kq Nf. step_tok Kq.
        destruct (W_inv _ _ _ Kq) as (_ & z & -> & A).
        assert (Sr : starts is_digit (r ++ z) = false).
        { destruct Nr as (N1 & _). destruct r as [|c r]; [discriminate|]. cbn in *.
          unfold ident_first in N1. unfold is_digit. unfold between in *.
          destruct (Nat.leb (nat_of_ascii c) (nat_of_ascii "9")) eqn:L; [|apply andb_false_r].
          apply Nat.leb_le in L. change (nat_of_ascii "9") with 57 in L.
          rewrite !orb_true_iff, !andb_true_iff, !Nat.leb_le, Ascii.eqb_eq in N1.
          change (nat_of_ascii "a") with 97 in N1. change (nat_of_ascii "A") with 65 in N1.
          destruct N1 as [[N1|N1]| ->]; [lia|lia|]. vm_compute in L. lia. }
        assert (P : forall k2, lit (chars k2) ((chars k2 ++ d ++ r) ++ z) = Some (d ++ r ++ z)).
        { intro k2. rewrite <- !app_assoc. apply lit_app. }
        assert (Pn : num (d ++ r ++ z) = Yes d (r ++ z)).
        { unfold num. destruct D as (D1 & D2). rewrite (span_all _ _ _ D2 Sr). destruct d; [congruence|reflexivity]. }
        assert (B : exists b, base_type ((chars k ++ d ++ r) ++ z) = Yes b (r ++ z)).
        { unfold base_type, prefixed. cbn in Ik. destruct Ik as [<-|[<-|[<-|[<-|[]]]]].
          - rewrite P, Pn. cbn. eauto.
          - replace (lit (chars "uint") ((chars "int" ++ d ++ r) ++ z)) with (@None text) by reflexivity.
            cbn [map_pres andthen orelse]. rewrite P, Pn. cbn. eauto.
          - replace (lit (chars "uint") ((chars "char" ++ d ++ r) ++ z)) with (@None text) by reflexivity.
            replace (lit (chars "int") ((chars "char" ++ d ++ r) ++ z)) with (@None text) by reflexivity.
            cbn [map_pres andthen orelse]. rewrite P, Pn. cbn. eauto.
          - replace (lit (chars "uint") ((chars "float" ++ d ++ r) ++ z)) with (@None text) by reflexivity.
            replace (lit (chars "int") ((chars "float" ++ d ++ r) ++ z)) with (@None text) by reflexivity.
            replace (lit (chars "char") ((chars "float" ++ d ++ r) ++ z)) with (@None text) by reflexivity.
            cbn [map_pres andthen orelse]. rewrite P, Pn. cbn. eauto. }
        destruct B as (b & B). unfold type_expr. rewrite B. cbn [andthen].
        assert (Sk : forall c, ident_other c = false -> tok c (r ++ z) = No).
        { intros c Hc. unfold tok. rewrite (skip_stop _ (name_stop _ z Nr)).
          destruct Nr as (N1 & N2). destruct r as [|e r]; [discriminate|]. cbn [app lit].
          cbn in N2. apply andb_prop in N2. destruct N2 as (N2 & _).
          rewrite eqb_ne; [reflexivity|]. intros ->. congruence. }
        unfold star. cbn [star_f]. unfold modif at 1, fixed_mod, var_mod.
        rewrite (Sk "[") by reflexivity. cbn [andthen orelse must].
        rewrite (Sk ";") by reflexivity. reflexivity. }
      rewrite Y. reflexivity. }
    destruct (length s); cbn [top_decl]; rewrite X; unfold import_decl;
      (not_kw Hw "import"%string); reflexivity. }
  unfold parse_text, star. cbn [star_f]. rewrite E. reflexivity.
Qed.

(** ** Files that a user would expect to be read *)
Lemma C49_end_comment_refuted_proof : exists ds s b,
  All ok_decl ds /\ spaced (flat_map decl_toks ds) s /\ ~ In newline b /\
  parse_text s = Some ds /\ parse_text (s ++ "/" :: "/" :: b) = None.
Proof.
  exists [DStruct ["A"] false []], (chars "struct A{}"), [" "]. split; [|split; [|split; [|split]]].
  - cbn. repeat split. constructor.
  - apply (lay_spaced [(chars "struct", [Sp " "]); (["A"], []); (["{"], []); (["}"], [])]). reflexivity.
  - intros [X|[]]. discriminate.
  - vm_compute. reflexivity.
  - vm_compute. reflexivity.
Qed.
(** A file with nothing but space, and a line end after the text of another language. *)
Lemma C49_blank_refuted_proof : parse_text [] = Some [] /\ forall g, filler g -> g <> [] -> parse_text g = None.
Proof.
  split; [reflexivity|]. intros g F N.
  assert (H : G [] g) by (exists g, []; split; [symmetry; apply app_nil_r|]; split; [exact F|split; constructor]).
  unfold parse_text, star. cbn [star_f]. rewrite (top_no [] g _ H) by auto.
  destruct g; [congruence|reflexivity].
Qed.
Lemma C49_literal_end_refuted_proof : exists ds s,
  All ok_decl ds /\ parse_text s = Some ds /\ parse_text (s ++ [newline]) = None.
Proof.
  exists [DLanguage (chars "cpp") (chars "int x;")], (chars "language cpp """"""int x;""""""").
  split; [|split; vm_compute; reflexivity]. cbn. repeat split.
  apply quotable_check. reflexivity.
Qed.

(** ** A file with every kind of declaration *)
Definition w (s : string) : text := chars s.
Definition ref (l : list string) : base := BRef (map chars l).
Definition sample : list decl :=
  [ DImport [w "net"; w "wire"];
    DStruct (w "Point") true
      [(w "x", mkT (BInt (w "32")) []);
       (w "int", mkT (BUint (w "8")) [Fixed (w "3"); Var (Some (w "1")) (Some (w "20"))]);
       (w "struct", mkT (ref ["net"; "Addr"]%string) [Var None None])];
    DSpace (w "a")
      [DSpace (w "b")
         [DVariant (w "V") false
            [mkVF (w "u") None None false;
             mkVF (w "p") (Some (mkT (ref ["Point"]%string) [])) (Some (TagNum (w "7"))) true;
             mkVF (w "default") (Some (mkT BAny [])) (Some (TagChar "/")) false];
          DEnum (w "E") false [mkVF (w "one") None (Some (TagNum (w "1"))) false]];
       DType (w "T") false (mkT (ref ["uint_"]%string) [])];
    DSpec (w "P") [w "Point"] (Some (w "a.b"));
    DLanguage (w "cpp") (w "int x; // "" ");
    DPortal (w "Q") [w "P"]
      [Sizer (w "size") true [w "Point"] None;
       Encoder (w "enc") [w "Point"] (Some (w "v.one"));
       Decoder (w "dec") [w "a"; w "T"] (Some [w "v.one"; w "v.two"])];
    DPrecomp (w "R") [w "Q"] [w "P"] ].
(** A space where one is needed, and comments in many places. *)
Fixpoint spread (i : nat) (l : list text) : list (text * list gap1) :=
  match l with
  | [] => []
  | [t] => [(t, [Sp newline; Com "end"])]
  | t :: ((u :: _) as r) =>
      (t, if quoted u then [Com " the text"]
          else if Nat.eqb (Nat.modulo i 3) 0 then [Sp " "; Com "x // y"; Sp newline]
          else if ends_word t && starts ident_other u then [Sp " "] else [])
        :: spread (S i) r
  end.
Definition free_b (n : text) : bool :=
  negb (if list_eq_dec ascii_dec n (chars "any") then true else false) &&
  forallb (fun k => match lit (chars k) n with Some (c :: _) => negb (is_digit c) | _ => true end)
          ["uint"; "int"; "char"; "float"]%string.
Lemma free_check n : free_b n = true -> free n.
Proof.
  intro H. apply andb_prop in H. destruct H as (H1 & H2). split.
  - intro E. destruct (list_eq_dec ascii_dec n (chars "any")); [discriminate|auto].
  - intros k c r I D ->. rewrite forallb_forall in H2. specialize (H2 _ I). rewrite lit_app in H2.
    rewrite D in H2. discriminate.
Qed.
Lemma path_check l : l <> [] -> Forall name l -> path (dot_text l).
Proof. intros A B. exists l. repeat split; auto. Qed.
Ltac written :=
  repeat match goal with
  | |- All _ (_ :: _) => split
  | |- All _ [] => exact I
  | |- ok_decl _ => cbn [ok_decl]
  | |- name _ => split; reflexivity
  | |- digits _ => split; [discriminate|reflexivity]
  | |- names _ => split; [discriminate|]
  | |- free _ => apply free_check; reflexivity
  | |- quotable _ => apply quotable_check; reflexivity
  | |- Forall _ (_ :: _) => constructor
  | |- Forall _ [] => constructor
  | |- ok_field _ => split; cbn [fst snd]
  | |- ok_type _ => split; cbn [t_base t_mods]
  | |- ok_base _ => cbn [ok_base ref map hd]
  | |- ok_vfield _ => split; [cbn [vf_name]|split; cbn [vf_type vf_tag ok_opt ok_tag]]
  | |- ok_mod _ => cbn [ok_mod]
  | |- ok_opt _ _ => cbn [ok_opt]
  | |- ok_tag _ => cbn [ok_tag]
  | |- ok_fn _ => cbn [ok_fn]
  | |- path (w "a.b") => apply (path_check [w "a"; w "b"])
  | |- path (w "v.one") => apply (path_check [w "v"; w "one"])
  | |- path (w "v.two") => apply (path_check [w "v"; w "two"])
  | |- _ /\ _ => split
  | |- _ <> [] => discriminate
  | |- True => exact I
  | |- @eq _ _ _ => reflexivity
  end.
Example sample_written : All ok_decl sample.
Proof. unfold sample. written. Qed.
Example sample_file : file_of sample (lay (spread 0 (flat_map decl_toks sample))).
Proof.
  exists [], (lay (spread 0 (flat_map decl_toks sample))). split; [reflexivity|]. split; [constructor|].
  split; [discriminate|].
  replace (flat_map decl_toks sample) with (map fst (spread 0 (flat_map decl_toks sample))) at 1
    by (vm_compute; reflexivity).
  apply lay_spaced. vm_compute. reflexivity.
Qed.
Example sample_read : parse_text (lay (spread 0 (flat_map decl_toks sample))) = Some sample.
Proof. apply C49_read_proof; [exact sample_written|exact sample_file]. Qed.
