(** Proofs for C53. *)
From Coq Require Import Ascii String List Bool Arith Lia Permutation.
From Verif Require Import Base Types Transcode Parse ParseFacts Elab Classes ClassSpec.
Import ListNotations.
Local Open Scope string_scope.

(** ** Paths survive being printed and read *)
Definition piece (s : string) : Prop := exists a r, s = String a r /\ no_dot r = true.
Lemma cut_no_dot : forall s, no_dot (fst (cut_at dot s)) = true.
Proof.
  induction s as [|a s IH]; cbn [cut_at]; auto. destruct (Ascii.eqb a dot) eqn:E; auto.
  destruct (cut_at dot s). cbn [fst no_dot] in *. rewrite E, IH. auto.
Qed.
Lemma pieces_piece : forall fuel s, Forall piece (path_pieces fuel s).
Proof.
  induction fuel as [|n IH]; intros [|a s]; cbn [path_pieces]; auto.
  pose proof (cut_no_dot s) as C. destruct (cut_at dot s) as [x [|b y]]; cbn [fst] in C; constructor; auto;
    exists a, x; auto.
Qed.
Lemma str_len x y : String.length (x ++ y) = (String.length x + String.length y)%nat.
Proof. induction x as [|c x IHx]; cbn [String.append String.length]; auto. rewrite IHx. auto. Qed.
Lemma pieces_back : forall p, Forall piece p -> path_from_string (path_to_string p) = p.
Proof.
  intros p F. unfold path_from_string.
  assert (G : forall fuel, (String.length (path_to_string p) <= fuel)%nat ->
                path_pieces fuel (path_to_string p) = p); [|apply G; auto].
  induction F as [|n p (a & r & -> & ND) F IH]; intros fuel L; [destruct fuel; auto|].
  destruct p as [|n' p].
  - cbn [path_to_string] in *. destruct fuel as [|fuel]; [cbn in L; lia|].
    cbn [path_pieces]. rewrite (proj2 (cut_at_app r "" ND)). auto.
  - change (path_to_string (String a r :: n' :: p))
      with (String a (r ++ String dot (path_to_string (n' :: p)))) in *.
    destruct fuel as [|fuel]; [cbn in L; lia|]. cbn [path_pieces].
    rewrite (proj1 (cut_at_app r _ ND)). f_equal. apply IH.
    cbn [String.length] in L. rewrite str_len in L. cbn [String.length] in L. lia.
Qed.
Lemma read_back q : was_read q -> path_from_string (path_to_string q) = q.
Proof. intros [s ->]. apply pieces_back. apply pieces_piece. Qed.
Lemma build_asked {P} outer (pr : P) f : paths_read f -> build pr (cfn_of outer f) = asked outer pr f.
Proof.
  destruct f; cbn [paths_read cfn_of build asked]; intro R; unfold full; try (rewrite read_back; auto).
  f_equal. rewrite map_map. induction R as [|q l Q R IH]; cbn [map]; auto.
  rewrite read_back, IH; auto.
Qed.

(** ** Tables *)
Lemma distinct_nodup l : distinct l = true <-> NoDup l.
Proof.
  induction l as [|a l IH]; cbn [distinct]; [split; auto; constructor|].
  rewrite andb_true_iff, IH, negb_true_iff. split.
  - intros [N ND]. constructor; auto. intro I.
    assert (X : existsb (String.eqb a) l = true); [|congruence].
    apply existsb_exists. exists a. rewrite String.eqb_refl. auto.
  - intro ND. inversion ND as [|? ? N D]; subst. split; auto.
    destruct (existsb (String.eqb a) l) eqn:E; auto. apply existsb_exists in E as (b & I & E).
    apply String.eqb_eq in E. subst b. tauto.
Qed.
Lemma table_in {A} (l : list (string * A)) n a : NoDup (map fst l) -> In (n, a) l -> table n l = Some a.
Proof.
  induction l as [|[k b] l IH]; cbn [map fst table]; intros ND; [intros []|].
  inversion ND as [|? ? N D]; subst. intros [E|I].
  - apply pair_equal_spec in E as [-> ->]. rewrite String.eqb_refl. auto.
  - destruct (String.eqb_spec n k) as [E|E]; auto. subst k. destruct N. apply (in_map fst) in I. auto.
Qed.
Lemma in_sorted f l : In f (sorted l) <-> In f l.
Proof.
  unfold sorted. rewrite !in_app_iff, !filter_In. destruct f; cbn; intuition discriminate.
Qed.

(** ** Portals *)
Lemma NoDup_app_l {A} (a b : list A) : NoDup (a ++ b) -> NoDup a.
Proof.
  induction a as [|x a IH]; cbn; [constructor|]. intro H. inversion H as [|? ? N D]; subst.
  constructor; auto. intro I. apply N. apply in_app_iff. auto.
Qed.
Lemma NoDup_app_r {A} (a b : list A) : NoDup (a ++ b) -> NoDup b.
Proof. induction a as [|x a IH]; cbn; auto. intro H. inversion H; auto. Qed.
Lemma C53_portal_proof : forall P outer name po h q (proto : P) f,
  let c := portal_class outer name po h q in
  class_ok c = true -> In f (po_fns po) -> paths_read f -> was_read q ->
  call c proto (fn_name f) = Some (asked outer proto f) /\
  k_head c = (outer ++ h)%list /\ path_from_string (k_path c) = q.
Proof.
  intros P outer name po h q proto f c OK I R Q. split; [|split; auto; apply read_back; auto].
  apply in_sorted in I. unfold class_ok in OK. apply distinct_nodup in OK.
  inversion OK as [|? ? _ O1]; subst. inversion O1 as [|? ? _ O2]; subst.
  inversion O2 as [|? ? _ O3]; subst. clear OK O1 O2.
  assert (N1 := NoDup_app_l _ _ O3). assert (N2 := NoDup_app_r _ _ O3). clear O3.
  subst c. cbn [k_methods k_members portal_class] in N1, N2.
  inversion N2 as [|? ? _ M1]; subst. inversion M1 as [|? ? _ M2]; subst.
  inversion M2 as [|? ? _ M3]; subst. clear N2 M1 M2.
  unfold call. rewrite (table_in _ (fn_name f) (fn_name f ++ "_")); auto;
    [|cbn [k_methods portal_class]; apply (in_map (fun f => (fn_name f, fn_name f ++ "_"))); auto].
  unfold member. rewrite (table_in _ (fn_name f ++ "_") (fn_name f)).
  - rewrite (table_in _ (fn_name f) (cfn_of outer f)).
    + cbn [option_map]. rewrite build_asked; auto.
    + cbn [k_adds portal_class]. rewrite map_map in *. cbn [fst] in *. auto.
    + cbn [k_adds portal_class]. apply (in_map (fun f => (fn_name f, cfn_of outer f))); auto.
  - rewrite map_rev. apply NoDup_rev. cbn [k_gets portal_class]. rewrite map_map. auto.
  - rewrite <- in_rev. cbn [k_gets portal_class]. apply (in_map (fun f => (fn_name f ++ "_", fn_name f))); auto.
Qed.

(** ** Precompiled portals *)
Section Program.
Variables (P : Type) (outer : scoped) (spec_of : scoped -> scoped * path) (plan : scoped -> path -> P).
(** The protocol of a specification. *)
Definition proto_of (n : scoped) : P := plan (outer ++ fst (spec_of n))%list (snd (spec_of n)).
Definition known (seen : list scoped) (env : list (string * P)) : Prop :=
  forall n, In n seen -> was_read (snd (spec_of n)) -> table (under outer n) env = Some (proto_of n).
Definition covered (seen : list scoped) (vars : list string) : Prop :=
  forall n, In n seen -> ~ In (under outer n) vars.

Lemma existsb_same n l : existsb (same_name n) l = true <-> In n l.
Proof.
  rewrite existsb_exists. split.
  - intros (m & I & E). apply same_name_iff in E. subst; auto.
  - intro I. exists n. split; auto. apply same_name_iff. auto.
Qed.
Lemma vars_app a b : vars_of (a ++ b) = (vars_of a ++ vars_of b)%list.
Proof. unfold vars_of. apply flat_map_app. Qed.
Lemma symbols_app a b : symbols_of (a ++ b) = (symbols_of a ++ symbols_of b)%list.
Proof. unfold symbols_of. apply flat_map_app. Qed.

(** What a program adds to the object file, given what its variables are. *)
Definition gives (x : pre) (o : list (string * def P)) : Prop :=
  In (ptr_symbol outer (pr_name x), DProto (proto_of (pr_proto x))) o /\
  In (size_symbol outer (pr_name x), DLen (proto_of (pr_proto x))) o /\
  forall f, In f (pr_fns x) -> In (symbol outer (pr_name x) f, DFun (asked outer (proto_of (pr_proto x)) f)) o.

Lemma adds_run v (p : P) g (c : pfn -> cfn) env : forall fs r o,
  table v env = Some p -> run_program plan r env = Some o ->
  run_program plan (map (fun f => SAdd (g f) (c f) v) fs ++ r) env =
    Some (map (fun f => (g f, DFun (build p (c f)))) fs ++ o)%list.
Proof.
  intros fs r o V R. induction fs as [|f fs IH]; cbn [map app]; auto.
  cbn [run_program]. rewrite V, IH. auto.
Qed.
Lemma protocol_run n seen env rest : 
  NoDup (vars_of (fst (add_protocol outer spec_of n seen) ++ rest)) ->
  covered seen (vars_of (fst (add_protocol outer spec_of n seen) ++ rest)) -> known seen env ->
  exists env', run_program plan (fst (add_protocol outer spec_of n seen) ++ rest) env =
                 run_program plan rest env' /\
    In n (snd (add_protocol outer spec_of n seen)) /\
    (forall m, In m seen -> In m (snd (add_protocol outer spec_of n seen))) /\
    covered (snd (add_protocol outer spec_of n seen)) (vars_of rest) /\ NoDup (vars_of rest) /\
    known (snd (add_protocol outer spec_of n seen)) env'.
Proof.
  unfold add_protocol. destruct (existsb (same_name n) seen) eqn:E; cbn [fst snd app].
  - intros ND C K. exists env. apply existsb_same in E. auto 7.
  - intros ND C K. cbn in ND. inversion ND as [|? ? N D]; subst.
    eexists. split; [reflexivity|]. split; [left; auto|]. split; [intros; right; auto|].
    split; [|split; auto].
    + intros m [<-|I] J; [apply N; auto|]. apply (C m I). right. auto.
    + intros m [<-|I] R; cbn [table].
      * rewrite String.eqb_refl. rewrite read_back by auto. auto.
      * destruct (String.eqb_spec (under outer m) (under outer n)) as [X|X]; auto.
        destruct (C m I). left. auto.
Qed.
Lemma protocols_run : forall ns seen env rest,
  NoDup (vars_of (fst (protocols outer spec_of ns seen) ++ rest)) ->
  covered seen (vars_of (fst (protocols outer spec_of ns seen) ++ rest)) -> known seen env ->
  exists env', run_program plan (fst (protocols outer spec_of ns seen) ++ rest) env =
                 run_program plan rest env' /\
    covered (snd (protocols outer spec_of ns seen)) (vars_of rest) /\ NoDup (vars_of rest) /\
    known (snd (protocols outer spec_of ns seen)) env'.
Proof.
  induction ns as [|n ns IH]; intros seen env rest; cbn [protocols fst snd app]; [eauto 6|].
  destruct (add_protocol outer spec_of n seen) as [a s1] eqn:A.
  destruct (protocols outer spec_of ns s1) as [b s2] eqn:B. cbn [fst snd]. rewrite <- app_assoc.
  intros ND C K. pose proof (protocol_run n seen env (b ++ rest)) as H. rewrite A in H. cbn [fst snd] in H.
  destruct (H ND C K) as (e1 & R1 & _ & _ & C1 & N1 & K1).
  pose proof (IH s1 e1 rest) as H2. rewrite B in H2. cbn [fst snd] in H2.
  destruct (H2 N1 C1 K1) as (e2 & R2 & C2 & N2 & K2). exists e2. rewrite R1, R2. auto.
Qed.
Lemma pre_vars x : vars_of (pre_stmts outer x) = [].
Proof.
  unfold pre_stmts. cbn. induction (sorted (pr_fns x)); cbn; auto.
Qed.
Lemma precs_run : forall l seen env,
  NoDup (vars_of (precompilations outer spec_of l seen)) ->
  covered seen (vars_of (precompilations outer spec_of l seen)) -> known seen env ->
  (forall x, In x l -> was_read (snd (spec_of (pr_proto x))) /\ Forall paths_read (pr_fns x)) ->
  exists o, run_program plan (precompilations outer spec_of l seen) env = Some o /\
    map fst o = symbols_of (precompilations outer spec_of l seen) /\
    forall x, In x l -> gives x o.
Proof.
  induction l as [|x l IH]; intros seen env; cbn [precompilations].
  - intros. exists []. split; [auto|]. split; auto. intros ? [].
  - destruct (add_protocol outer spec_of (pr_proto x) seen) as [a s1] eqn:A. intros ND C K W.
    pose proof (protocol_run (pr_proto x) seen env
                  (pre_stmts outer x ++ precompilations outer spec_of l s1)) as H.
    rewrite A in H. cbn [fst snd] in H. destruct (H ND C K) as (e1 & R1 & I1 & _ & C1 & N1 & K1). clear H.
    rewrite vars_app, pre_vars in C1, N1. cbn [app] in C1, N1.
    destruct (IH s1 e1 N1 C1 K1) as (o & RO & S & G); [intros y I; apply W; right; auto|].
    destruct (W x (or_introl eq_refl)) as [Q F].
    assert (V := K1 _ I1 Q).
    rewrite R1. unfold pre_stmts. cbn [app run_program]. rewrite V.
    rewrite (adds_run _ _ (symbol outer (pr_name x)) (cfn_of outer) e1 _ _ o V RO).
    eexists. split; [reflexivity|]. split.
    + rewrite !symbols_app. cbn [map fst app].
      assert (SA : symbols_of a = []).
      { unfold add_protocol in A. destruct (existsb _ _); injection A as <- _; auto. }
      rewrite SA. cbn. rewrite map_app, S. do 2 f_equal. f_equal. rewrite map_map. cbn [fst].
      clear. induction (sorted (pr_fns x)) as [|f fs IHf]; cbn; auto. rewrite IHf. auto.
    + intros y [<-|I].
      * split; [left; auto|]. split; [right; left; auto|]. intros f J. right. right.
        apply in_app_iff. left. rewrite Forall_forall in F.
        rewrite <- (build_asked outer (proto_of (pr_proto x)) f (F f J)).
        apply (in_map (fun f => (symbol outer (pr_name x) f, DFun (build (proto_of (pr_proto x)) (cfn_of outer f))))).
        apply in_sorted. auto.
      * destruct (G y I) as (G1 & G2 & G3).
        split; [right; right; apply in_app_iff; auto|].
        split; [right; right; apply in_app_iff; auto|]. intros f J. right. right. apply in_app_iff. auto.
Qed.
End Program.

Lemma program_symbols outer spec_of ns l : forall seen,
  symbols_of (fst (protocols outer spec_of ns seen)) = [] /\
  symbols_of (precompilations outer spec_of l seen) = flat_map (fun x => symbols_of (pre_stmts outer x)) l.
Proof.
  assert (A : forall n s, symbols_of (fst (add_protocol outer spec_of n s)) = []).
  { intros. unfold add_protocol. destruct (existsb _ _); auto. }
  intro seen. split; revert seen.
  - induction ns as [|n ns IH]; intro seen; cbn [protocols]; auto.
    specialize (A n seen). destruct (add_protocol outer spec_of n seen) as [a s1]. specialize (IH s1).
    destruct (protocols outer spec_of ns s1) as [b s2]. cbn [fst] in *. rewrite symbols_app, A, IH. auto.
  - induction l as [|x l IH]; intro seen; cbn [precompilations flat_map]; auto.
    specialize (A (pr_proto x) seen). destruct (add_protocol outer spec_of (pr_proto x) seen) as [a s1].
    cbn [fst] in A. rewrite !symbols_app, A, IH. auto.
Qed.

Lemma C53_precompiled_proof : forall P outer spec_of (plan : scoped -> path -> P) ns l,
  program_ok (program outer spec_of ns l) = true ->
  (forall x, In x l -> was_read (snd (spec_of (pr_proto x))) /\ Forall paths_read (pr_fns x)) ->
  exists o, run_program plan (program outer spec_of ns l) [] = Some o /\
    forall x, In x l ->
      let proto := plan (outer ++ fst (spec_of (pr_proto x)))%list (snd (spec_of (pr_proto x))) in
      table (ptr_symbol outer (pr_name x)) o = Some (DProto proto) /\
      table (size_symbol outer (pr_name x)) o = Some (DLen proto) /\
      forall f, In f (pr_fns x) -> exists s,
        table (fn_name f) (method_symbols outer x) = Some s /\
        table s o = Some (DFun (asked outer proto f)).
Proof.
  intros P outer spec_of plan ns l OK W. unfold program_ok in OK. apply andb_prop in OK as [O1 O2].
  apply distinct_nodup in O1, O2. unfold program in *.
  pose proof (protocols_run P outer spec_of plan ns [] []) as H.
  pose proof (program_symbols outer spec_of ns l) as PS.
  destruct (protocols outer spec_of ns []) as [a seen] eqn:A. cbn [fst snd] in H.
  destruct (H (precompilations outer spec_of l seen) O1) as (e & R & C & N & K).
  { intros n []. } { intros n []. }
  destruct (precs_run P outer spec_of plan l seen e N C K W) as (o & RO & S & G).
  exists o. rewrite R. split; auto.
  assert (ND : NoDup (map fst o)). { rewrite S. rewrite symbols_app in O2. apply NoDup_app_r in O2. auto. }
  intros x I. destruct (G x I) as (G1 & G2 & G3). unfold proto_of in *. cbn zeta.
  split; [apply table_in; auto|]. split; [apply table_in; auto|]. intros f J.
  exists (symbol outer (pr_name x) f). split; [|apply table_in; auto].
  apply table_in.
  - rewrite (proj2 (PS seen)) in S. rewrite S in ND. clear - ND I.
    assert (D : NoDup (map (symbol outer (pr_name x)) (sorted (pr_fns x)))).
    { induction l as [|y l IH]; [destruct I|]. cbn [flat_map] in ND. destruct I as [<-|I].
      - apply NoDup_app_l in ND. cbn in ND. inversion ND as [|? ? _ D]; subst. inversion D as [|? ? _ D2]; subst.
        clear - D2. assert (X : flat_map (fun s => match s with SPlan _ _ _ => [] | SAdd n _ _ => [n] | SDefine p z _ => [p; z] end)
          (map (fun f => SAdd (symbol outer (pr_name y) f) (cfn_of outer f) (under outer (pr_proto y))) (sorted (pr_fns y)))
          = map (symbol outer (pr_name y)) (sorted (pr_fns y))).
        { clear. induction (sorted (pr_fns y)); cbn; auto. f_equal; auto. }
        rewrite X in D2. auto.
      - apply IH; auto. apply NoDup_app_r in ND. auto. }
    unfold method_symbols. rewrite map_map. cbn [fst].
    change (map (symbol outer (pr_name x)) (sorted (pr_fns x)))
      with (map (fun f => (fun s => under outer (pr_name x) ++ "_" ++ s) (fn_name f)) (sorted (pr_fns x))) in D.
    rewrite <- (map_map fn_name (fun s => under outer (pr_name x) ++ "_" ++ s)) in D.
    apply NoDup_map_inv in D. auto.
  - unfold method_symbols. apply (in_map (fun f => (fn_name f, symbol outer (pr_name x) f))). apply in_sorted. auto.
Qed.

(** ** Names without underscores do not collide *)
Lemma app_cancel : forall a b c : string, a ++ b = a ++ c -> b = c.
Proof. induction a as [|x a IH]; cbn; intros b c H; auto. injection H as H. auto. Qed.
Lemma app_assoc_s : forall a b c : string, (a ++ b) ++ c = a ++ b ++ c.
Proof. induction a as [|x a IH]; cbn; intros; auto. rewrite IH. auto. Qed.
Lemma join_app sep a b : join sep (a ++ b)%list = join sep a ++ join sep b.
Proof.
  induction a as [|x a IH]; auto. cbn [app join]. rewrite IH, !app_assoc_s. auto.
Qed.
Lemma bare_cancel : forall a b x y, bare_word a -> bare_word b ->
  (x = "" \/ exists x', x = String "_" x') -> (y = "" \/ exists y', y = String "_" y') ->
  a ++ x = b ++ y -> a = b /\ x = y.
Proof.
  induction a as [|c a IH]; intros [|d b] x y A B X Y E.
  - auto.
  - cbn in E. destruct B as [B _]. destruct X as [->|(x' & ->)]; [discriminate|].
    injection E as E _. congruence.
  - cbn in E. destruct A as [A _]. destruct Y as [->|(y' & ->)]; [discriminate|].
    injection E as E _. congruence.
  - cbn in E. injection E as -> E. destruct A as [_ A], B as [_ B].
    destruct (IH b x y A B X Y E) as [-> ->]. auto.
Qed.
Lemma join_start n : join "_" n = "" \/ exists x, join "_" n = String "_" x.
Proof. destruct n; [left; auto|right]. eexists. reflexivity. Qed.
Lemma join_inj : forall a b, Forall bare_word a -> Forall bare_word b -> join "_" a = join "_" b -> a = b.
Proof.
  induction a as [|x a IH]; intros [|y b] A B E; auto; try discriminate.
  inversion A; inversion B; subst. cbn in E. injection E as E.
  apply bare_cancel in E as [-> E]; auto using join_start. f_equal. auto.
Qed.
Lemma under_inj outer a b : Forall bare_word a -> Forall bare_word b -> under outer a = under outer b -> a = b.
Proof.
  unfold under, full. rewrite !join_app. intros A B E. apply app_cancel in E. apply join_inj; auto.
Qed.
Lemma symbol_under outer n f : symbol outer n f = under outer (n ++ [fn_name f])%list.
Proof.
  unfold symbol, under, full. rewrite app_assoc, (join_app "_" (outer ++ n)%list). cbn [join].
  do 2 f_equal. cbn. f_equal. clear. induction (fn_name f) as [|c s IH]; cbn; auto. rewrite <- IH. auto.
Qed.
Lemma under_head outer n f : exists s, symbol outer n f = String "_" s.
Proof.
  rewrite symbol_under. unfold under, full. rewrite app_assoc.
  destruct (outer ++ n)%list as [|a l]; eexists; reflexivity.
Qed.

(** Two lists of strings without common members. *)
Lemma nodup_app {A} (a b : list A) : NoDup a -> NoDup b -> (forall x, In x a -> ~ In x b) -> NoDup (a ++ b).
Proof.
  induction a as [|x a IH]; cbn; auto. intros A1 B D. inversion A1 as [|? ? N ND]; subst.
  constructor; [|apply IH; auto; intros y I; apply D; auto].
  rewrite in_app_iff. intros [I|I]; [auto|apply (D x); auto].
Qed.
Lemma nodup_map_in {A B} (g : A -> B) l :
  (forall x y, In x l -> In y l -> g x = g y -> x = y) -> NoDup l -> NoDup (map g l).
Proof.
  intros J ND. induction ND as [|x l N ND IH]; cbn; constructor.
  - intro I. apply in_map_iff in I as (y & E & I). apply J in E; [subst; auto|right; auto|left; auto].
  - apply IH. intros y z I K. apply J; right; auto.
Qed.
Lemma sorted_perm l : Permutation (sorted l) l.
Proof.
  unfold sorted. induction l as [|f l IH]; auto. destruct f; cbn [filter is_sizer is_encoder is_decoder app].
  - constructor. auto.
  - rewrite <- Permutation_middle. constructor. auto.
  - rewrite app_assoc, <- Permutation_middle, <- app_assoc. constructor. auto.
Qed.

(** Names of parts: no underscore. *)
Definition plain_pre (x : pre) : Prop :=
  Forall bare_word (pr_name x) /\ Forall bare_word (map fn_name (pr_fns x)) /\
  NoDup (map fn_name (pr_fns x)).
Lemma pre_symbols outer x : symbols_of (pre_stmts outer x) =
  ptr_symbol outer (pr_name x) :: size_symbol outer (pr_name x) ::
  map (symbol outer (pr_name x)) (sorted (pr_fns x)).
Proof.
  unfold pre_stmts. cbn. do 2 f_equal. induction (sorted (pr_fns x)); cbn; auto. f_equal; auto.
Qed.
Lemma pre_symbol_in outer x s : In s (symbols_of (pre_stmts outer x)) ->
  s = ptr_symbol outer (pr_name x) \/ s = size_symbol outer (pr_name x) \/
  exists f, In f (pr_fns x) /\ s = symbol outer (pr_name x) f.
Proof.
  rewrite pre_symbols. intros [<-|[<-|I]]; auto. apply in_map_iff in I as (f & <- & I).
  apply (proj1 (in_sorted _ _)) in I. right. right. exists f. auto.
Qed.
Lemma pre_across outer x y s : plain_pre x -> plain_pre y ->
  In s (symbols_of (pre_stmts outer x)) -> In s (symbols_of (pre_stmts outer y)) -> pr_name x = pr_name y.
Proof.
  intros (X1 & X2 & _) (Y1 & Y2 & _) I J.
  rewrite Forall_forall in X2, Y2.
  apply pre_symbol_in in I as [->|[->|(f & F & ->)]]; apply pre_symbol_in in J as [E|[E|(g & G & E)]];
    unfold ptr_symbol, size_symbol in E; try (cbn in E; discriminate E).
  - apply app_cancel in E. eapply under_inj; eauto.
  - destruct (under_head outer (pr_name y) g) as [z Z]. rewrite Z in E. discriminate E.
  - apply app_cancel in E. eapply under_inj; eauto.
  - destruct (under_head outer (pr_name y) g) as [z Z]. rewrite Z in E. discriminate E.
  - destruct (under_head outer (pr_name x) f) as [z Z]. rewrite Z in E. discriminate E.
  - destruct (under_head outer (pr_name x) f) as [z Z]. rewrite Z in E. discriminate E.
  - rewrite !symbol_under in E. apply under_inj in E.
    + apply app_inj_tail in E. tauto.
    + apply Forall_app. split; auto. constructor; auto. apply X2. apply in_map; auto.
    + apply Forall_app. split; auto. constructor; auto. apply Y2. apply in_map; auto.
Qed.
Lemma pre_nodup outer x : plain_pre x -> NoDup (symbols_of (pre_stmts outer x)).
Proof.
  intros (X1 & X2 & X3). rewrite pre_symbols. rewrite Forall_forall in X2.
  assert (M : forall s, In s (map (symbol outer (pr_name x)) (sorted (pr_fns x))) -> exists z, s = String "_" z).
  { intros s I. apply in_map_iff in I as (f & <- & _). apply under_head. }
  constructor; [|constructor].
  - intros [E|I]; [discriminate E|]. destruct (M _ I) as [z Z]. discriminate Z.
  - intro I. destruct (M _ I) as [z Z]. discriminate Z.
  - assert (D : NoDup (map fn_name (sorted (pr_fns x)))).
    { eapply Permutation_NoDup; [|exact X3]. apply Permutation_map. symmetry. apply sorted_perm. }
    rewrite (map_ext _ (fun f => (fun s => under outer (pr_name x) ++ "_" ++ s) (fn_name f))) by auto.
    rewrite <- (map_map fn_name (fun s => under outer (pr_name x) ++ "_" ++ s)).
    apply FinFun.Injective_map_NoDup; auto. intros a b E. apply app_cancel in E. cbn in E. congruence.
Qed.

Lemma protocols_vars outer spec_of : forall ns seen,
  exists new, vars_of (fst (protocols outer spec_of ns seen)) = map (under outer) new /\
    NoDup new /\ (forall n, In n new -> In n ns /\ ~ In n seen) /\
    (forall n, In n (snd (protocols outer spec_of ns seen)) <-> In n new \/ In n seen).
Proof.
  induction ns as [|n ns IH]; intro seen; cbn [protocols].
  - exists []. cbn. repeat split; auto; try constructor; try tauto; intros; contradiction.
  - unfold add_protocol. destruct (existsb (same_name n) seen) eqn:E.
    + destruct (IH seen) as (new & V & ND & I & S). destruct (protocols outer spec_of ns seen) as [b s2].
      cbn [fst snd app] in *. exists new. split; auto. split; auto. split; auto.
      intros m M. destruct (I m M). split; auto. right. auto.
    + destruct (IH (n :: seen)) as (new & V & ND & I & S).
      destruct (protocols outer spec_of ns (n :: seen)) as [b s2]. cbn [fst snd] in *.
      exists (n :: new). cbn. split; [f_equal; auto|]. split; [constructor; auto; intro X; destruct (I n X) as [_ Y]; apply Y; left; auto|].
      assert (NE : ~ In n seen). { intro X. apply existsb_same in X. congruence. }
      split.
      * intros m [<-|M]; [auto|]. destruct (I m M) as [J1 J2]. split; auto. intro X. apply J2. right. auto.
      * intro m. rewrite S. cbn. tauto.
Qed.
Lemma precs_vars outer spec_of : forall l seen,
  vars_of (precompilations outer spec_of l seen) =
  vars_of (fst (protocols outer spec_of (map pr_proto l) seen)).
Proof.
  induction l as [|x l IH]; intro seen; cbn [precompilations map protocols]; auto.
  destruct (add_protocol outer spec_of (pr_proto x) seen) as [a s1]. specialize (IH s1).
  destruct (protocols outer spec_of (map pr_proto l) s1) as [b s2]. cbn [fst] in *.
  rewrite !vars_app, pre_vars, IH. auto.
Qed.
Lemma C53_distinct_proof : forall outer spec_of ns l,
  (forall n, In n (ns ++ map pr_proto l) -> Forall bare_word n) ->
  Forall plain_pre l -> NoDup (map pr_name l) ->
  program_ok (program outer spec_of ns l) = true.
Proof.
  intros outer spec_of ns l V F ND. unfold program_ok, program.
  destruct (protocols_vars outer spec_of ns []) as (n1 & V1 & D1 & I1 & S1).
  pose proof (program_symbols outer spec_of ns l) as PS.
  specialize (PS []) as [PS _].
  destruct (protocols outer spec_of ns []) as [a seen]. cbn [fst snd] in *.
  destruct (protocols_vars outer spec_of (map pr_proto l) seen) as (n2 & V2 & D2 & I2 & _).
  apply andb_true_iff. split; apply distinct_nodup.
  - rewrite vars_app, V1, precs_vars, V2, <- map_app. apply nodup_map_in.
    + intros x y X Y E. apply under_inj in E; auto; apply V; rewrite in_app_iff in *;
        [destruct X as [X|X]; [apply I1 in X|apply I2 in X]; tauto
        |destruct Y as [Y|Y]; [apply I1 in Y|apply I2 in Y]; tauto].
    + apply nodup_app; auto. intros x X Y. apply I2 in Y as [_ Y]. apply Y. apply S1. auto.
  - rewrite symbols_app, PS. cbn [app]. rewrite (proj2 (program_symbols outer spec_of ns l seen)).
    clear - F ND. induction F as [|x l X F IH]; cbn [flat_map]; [constructor|].
    cbn [map] in ND. inversion ND as [|? ? N D]; subst. apply nodup_app; auto using pre_nodup.
    intros s I J. apply in_flat_map in J as (y & J1 & J2). apply N.
    rewrite Forall_forall in F. rewrite (pre_across outer x y s); auto. apply in_map. auto.
Qed.

(** A portal whose function names have no underscore compiles, but for a few names. *)
Lemma bare_tail s t : bare_word s -> s <> t ++ "_".
Proof.
  revert t. induction s as [|c s IH]; intros [|d t] B E; cbn in E; try discriminate.
  - injection E as -> _. destruct B. auto.
  - injection E as _ E. destruct B as [_ B]. apply (IH t B E).
Qed.
Lemma snoc_inj s t u : s ++ u = t ++ u -> s = t.
Proof.
  revert t. induction s as [|c s IH]; intros [|d t] E; auto.
  - exfalso. apply (f_equal String.length) in E. rewrite !str_len in E. cbn in E. lia.
  - exfalso. apply (f_equal String.length) in E. rewrite !str_len in E. cbn in E. lia.
  - cbn in E. injection E as -> E. f_equal. auto.
Qed.
Lemma C53_class_proof : forall outer name po h q,
  NoDup (map fn_name (po_fns po)) -> Forall bare_word (map fn_name (po_fns po)) ->
  bare_word (List.last name "") ->
  (forall s, In s [List.last name ""; "getProtocol"; "getContext"; "ctx"; "proto"; "portal"] ->
     ~ In s (map fn_name (po_fns po))) ->
  ~ In (List.last name "") ["getProtocol"; "getContext"] ->
  class_ok (portal_class outer name po h q) = true.
Proof.
  intros outer name po h q ND B BN R1 R2. unfold class_ok. apply distinct_nodup.
  cbn [k_name k_methods k_members portal_class]. rewrite map_map. cbn [fst].
  set (fs := sorted (po_fns po)).
  assert (PM : forall s, In s (map fn_name fs) <-> In s (map fn_name (po_fns po))).
  { intro s. split; intro I; eapply Permutation_in; try exact I; apply Permutation_map;
      [|symmetry]; apply sorted_perm. }
  assert (D : NoDup (map fn_name fs)).
  { eapply Permutation_NoDup; [|exact ND]. apply Permutation_map. symmetry. apply sorted_perm. }
  assert (BF : forall s, In s (map fn_name fs) -> bare_word s).
  { intros s I. rewrite Forall_forall in B. apply B. apply PM. auto. }
  rewrite <- (map_map fn_name (fun s => s ++ "_")).
  set (ms := map (fun s => s ++ "_") ("ctx" :: "proto" :: "portal" :: map fn_name fs)).
  change ("ctx_" :: "proto_" :: "portal_" :: map (fun s => s ++ "_") (map fn_name fs)) with ms.
  assert (TM : forall s, bare_word s -> ~ In s ms).
  { intros s BS I. unfold ms in I. apply in_map_iff in I as (t & E & _). symmetry in E. revert E. apply bare_tail. auto. }
  assert (RF : forall s, In s [List.last name ""; "getProtocol"; "getContext"; "ctx"; "proto"; "portal"] ->
                 ~ In s (map fn_name fs)).
  { intros s I J. apply (R1 s I). apply PM. auto. }
  assert (GP : bare_word "getProtocol" /\ bare_word "getContext") by (cbn; repeat split; discriminate).
  constructor; [|constructor; [|constructor]].
  - intros [E|[E|I]].
    + apply R2. left. auto.
    + apply R2. right. left. auto.
    + apply in_app_iff in I as [I|I]; [apply (RF (List.last name "")) in I; auto; left; auto|apply TM in I; auto].
  - intros [E|I]; [discriminate E|].
    apply in_app_iff in I as [I|I]; [apply (RF "getProtocol") in I; auto; right; left; auto|apply TM in I; tauto].
  - intro I. apply in_app_iff in I as [I|I]; [apply (RF "getContext") in I; auto; do 2 right; left; auto|apply TM in I; tauto].
  - apply nodup_app; auto.
    unfold ms. apply FinFun.Injective_map_NoDup; [intros s t E; apply snoc_inj in E; auto|].
    constructor; [|constructor; [|constructor; auto]].
    + intros [E|[E|I]]; try discriminate. apply (RF "ctx") in I; auto. cbn. tauto.
    + intros [E|I]; try discriminate. apply (RF "proto") in I; auto. cbn. tauto.
    + intro I. apply (RF "portal") in I; auto. cbn. tauto.
Qed.

(** ** The options of pjc *)
Lemma C53_option_proof : forall n, n <> [] -> n <> [""] -> Forall (fun s => no_dot s = true) n ->
  decode_scoped (String.concat "." n) = n.
Proof.
  intros n NE N1 F.
  assert (G : forall fuel, n <> [] -> (String.length (String.concat "." n) < fuel)%nat ->
            split_name fuel (String.concat "." n) = n).
  { clear NE N1. induction F as [|s n D F IH]; intros fuel NE L; [congruence|].
    destruct fuel as [|fuel]; [lia|]. destruct n as [|t n].
    - cbn [String.concat split_name]. rewrite (proj2 (cut_at_app s "" D)). auto.
    - change (String.concat "." (s :: t :: n)) with (s ++ String dot (String.concat "." (t :: n))) in *.
      cbn [split_name]. rewrite (proj1 (cut_at_app s _ D)). f_equal. apply IH; [discriminate|].
      rewrite str_len in L. cbn [String.length] in L. lia. }
  unfold decode_scoped. destruct (String.concat "." n) as [|c r] eqn:E; [|apply G; auto; rewrite E; lia].
  destruct n as [|s [|t n]]; [congruence| |].
  - cbn in E. congruence.
  - cbn in E. destruct s; discriminate E.
Qed.
