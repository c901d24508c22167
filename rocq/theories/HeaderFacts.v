(** A header written for a planned protocol builds it again (C48). *)
From Verif Require Import Base Types Transcode Spec Api Plan Claims Schema Ends MemFacts Round Space
  CoreFacts Reflect PlanConv BinCompatFacts ReflectFacts Deaf Header Gen.
From Coq Require Import Permutation.
Local Open Scope Z_scope.

(** ** The tree a named type stands for *)
Fixpoint traverse {A B} (f : A -> option B) (l : list A) : option (list B) :=
  match l with
  | [] => Some []
  | a :: r =>
      match f a, traverse f r with
      | Some b, Some s => Some (b :: s)
      | _, _ => None
      end
  end.
Fixpoint wtree (find : key -> option ty) (t : wty) : option ty :=
  match t with
  | WInt w al s => Some (TInt w al s)
  | WFloat w al => Some (TFloat w al)
  | WUnit => Some TUnit
  | WNamed n => find n
  | WArr e len esz al => option_map (fun e' => TArr e' len esz al) (wtree find e)
  | WVec e p => option_map (fun e' => TVec e' p) (wtree find e)
  end.
Definition dtree (find : key -> option ty) (d : wdef) : option ty :=
  match d with
  | WStruct fs size al =>
      option_map (fun l => TStruct l size al)
        (traverse (fun f => option_map (fun t => mkField (f_name f) t (f_off f))
                                       (wtree find (f_ty f))) fs)
  | WVar x ts =>
      option_map (fun l => TVar x l)
        (traverse (fun t => option_map (fun u => mkTerm (t_name t) u (t_tag t) (t_attrs t))
                                       (wtree find (t_ty t))) ts)
  end.
Fixpoint named (env : wenv) (n : key) : option ty :=
  match env with
  | [] => None
  | (m, d) :: r => if key_eqb m n then dtree (named r) d else named r n
  end.

(** No float in the definitions. *)
Fixpoint no_float (t : wty) : bool :=
  match t with
  | WFloat _ _ => false
  | WArr e _ _ _ => no_float e
  | WVec e _ => no_float e
  | _ => true
  end.
Definition no_floats (env : wenv) : bool := forallb (fun e => forallb no_float (parts (snd e))) env.

(** ** What the header builds *)
Definition revar (x : varinfo) : varinfo :=
  if x_outline x
  then mkVar true (x_default x) (x_term_off x) 0 (x_tag_w x) (x_tag_w x) (x_align x)
  else x.
Fixpoint rebuilt (t : ty) : ty :=
  match t with
  | TStruct fs size al =>
      TStruct (map (fun f => mkField (f_name f) (rebuilt (f_ty f)) (f_off f)) fs) size al
  | TVar x ts =>
      TVar (revar x) (map (fun t => mkTerm (t_name t) (rebuilt (t_ty t)) (t_tag t) []) ts)
  | TArr e len esz al => TArr (rebuilt e) len esz al
  | TVec e p =>
      TVec (rebuilt e)
           (mkVec (v_min p) (v_max p) (v_min p) (v_ppl p) (v_len_off p) (v_len_sz p)
                  (v_ref_off p) (v_ref_sz p) (v_mode p) (v_inl_off p) (v_part_off p)
                  (align_up (hsize (rebuilt e)) (halign (rebuilt e))) (v_size p) (v_align p))
  | _ => t
  end.

Lemma qname_eqb_eq : forall a b, qname_eqb a b = true <-> a = b.
Proof. intros. unfold qname_eqb. destruct (list_eq_dec string_dec a b); split; congruence. Qed.
Lemma key_eqb_eq : forall a b, key_eqb a b = true <-> a = b.
Proof.
  intros [x a] [y b]. unfold key_eqb. cbn [fst snd]. rewrite andb_true_iff, qname_eqb_eq, Bool.eqb_true_iff.
  split; [intros [-> ->]; auto|intro E; injection E; auto].
Qed.
(** The names of the definitions. *)
Definition names (env : wenv) : list qname := map (fun e => snd (fst e)) env.

(** ** Parsing *)
Definition flat (s : stmt) : list tok :=
  match s with
  | Do t f args => Open t f :: map Arg args ++ [Semi]
  | Give h => [Return h]
  end.
Lemma parse_args : forall args t f acc l,
  parse (Some (t, f, acc)) (map Arg args ++ Semi :: l) =
  option_map (cons (Do t f (acc ++ args))) (parse None l).
Proof.
  induction args as [|a args IH]; intros; cbn [map app parse].
  - rewrite app_nil_r. auto.
  - rewrite IH, <- app_assoc. auto.
Qed.
Lemma parse_flat : forall ss, parse None (flat_map flat ss) = Some ss.
Proof.
  induction ss as [|s ss IH]; auto. cbn [flat_map]. destruct s as [t f args|h]; cbn [flat app parse].
  - rewrite <- app_assoc. cbn [app]. rewrite parse_args, IH. auto.
  - rewrite IH. auto.
Qed.

(** ** The statements of a handle *)
Definition hlast (t : wty) (c : nat) : stmt :=
  match t with
  | WNamed n => Do (ToHandle c) (Build (snd n)) []
  | WInt w al s => Do (ToHandle c) MkInt [bits w; bits al; ASign s]
  | WFloat w al => Do (ToHandle c) MkFloat [bits w; bits al]
  | WUnit => Do (ToHandle c) MkUnit []
  | WArr e len esz al => Do (ToHandle c) MkArr [AHandle (S c); ANum len; bits esz; bits al]
  | WVec e p =>
      Do (ToHandle c) MkVec
         [AHandle (S c); ANum (v_min p); ANum (v_max p); ANum (v_min p); ANum (v_ppl p);
          bits (v_len_off p); bits (v_len_sz p); bits (v_ref_off p); bits (v_ref_sz p);
          AMode (v_mode p); bits (v_inl_off p); bits (v_part_off p); bits (v_size p);
          bits (v_align p)]
  end.
Fixpoint hstmts (t : wty) (c : nat) : list stmt :=
  match t with
  | WArr e _ _ _ | WVec e _ => hstmts e (S c) ++ [hlast t c]
  | _ => [hlast t c]
  end.
Lemma handle_flat : forall t c, no_float t = true ->
  fst (handle t c) = flat_map flat (hstmts t c).
Proof.
  induction t as [w al s|w al| |n|e IH len esz al|e IH p]; intros c N; try discriminate; try reflexivity;
    cbn [handle hstmts no_float] in *; specialize (IH (S c) N); destruct (handle e (S c)) as [te c'];
    cbn [fst] in *; rewrite IH, flat_map_app; reflexivity.
Qed.
Lemma handle_next : forall t c, (c < snd (handle t c))%nat.
Proof.
  induction t as [w al s|w al| |n|e IH len esz al|e IH p]; intros c; cbn [handle snd]; try lia;
    specialize (IH (S c)); destruct (handle e (S c)); cbn [snd] in *; lia.
Qed.

Lemma bytes_bits : forall z, bytes (8 * z) = z.
Proof. intro. unfold bytes. rewrite Z.mul_comm. apply Z.div_mul. lia. Qed.


Fixpoint leaf (t : wty) : option key :=
  match t with
  | WNamed n => Some n
  | WArr e _ _ _ => leaf e
  | WVec e _ => leaf e
  | _ => None
  end.

Lemma run_handle : forall find bld es t u c hs rest,
  no_float t = true -> wtree find t = Some u ->
  (forall n, leaf t = Some n -> bld (snd n) = option_map rebuilt (find n)) ->
  exists hs', run bld hs es (hstmts t c ++ rest) = run bld hs' es rest /\
    hs' c = Some (rebuilt u).
Proof.
  intros find bld es.
  induction t as [w al s|w al| |n|e IH len esz al|e IH p]; intros u c hs rest N T L;
    cbn [no_float wtree leaf hstmts hlast] in *; try discriminate.
  - injection T as <-. cbn [app run call bits]. rewrite !bytes_bits. eexists. split; [reflexivity|].
    unfold upd. rewrite Nat.eqb_refl. auto.
  - injection T as <-. cbn [app run call]. eexists. split; [reflexivity|].
    unfold upd. rewrite Nat.eqb_refl. auto.
  - cbn [app run call]. rewrite (L n eq_refl), T. cbn [option_map]. eexists. split; [reflexivity|].
    unfold upd. rewrite Nat.eqb_refl. auto.
  - destruct (wtree find e) as [v|] eqn:E; [|discriminate]. injection T as <-.
    rewrite <- app_assoc. destruct (IH v (S c) hs ([Do (ToHandle c) MkArr [AHandle (S c); ANum len; bits esz; bits al]] ++ rest) N eq_refl L) as (hs' & R & H).
    rewrite R. cbn [app run call bits]. rewrite H. cbn [option_map]. rewrite !bytes_bits.
    eexists. split; [reflexivity|]. unfold upd. rewrite Nat.eqb_refl. auto.
  - destruct (wtree find e) as [v|] eqn:E; [|discriminate]. injection T as <-.
    rewrite <- app_assoc.
    match goal with |- context [_ ++ [?x] ++ rest] =>
      destruct (IH v (S c) hs ([x] ++ rest) N eq_refl L) as (hs' & R & H) end.
    rewrite R. cbn [app run call bits]. rewrite H. cbn [option_map]. rewrite !bytes_bits.
    eexists. split; [reflexivity|]. unfold upd. rewrite Nat.eqb_refl. auto.
Qed.

(** ** The statements of a builder *)
Fixpoint fstmts (k : nat) (fs : list (field wty)) (c : nat) : list stmt :=
  match fs with
  | [] => []
  | f :: r =>
      hstmts (f_ty f) c ++
      Do (ToElem k) MkField [AStr (f_name f); AHandle c; bits (f_off f)] ::
      fstmts (S k) r (snd (handle (f_ty f) c))
  end.
Fixpoint tstmts (k : nat) (ts : list (term wty)) (c : nat) : list stmt :=
  match ts with
  | [] => []
  | t :: r =>
      hstmts (t_ty t) c ++
      Do (ToElem k) MkTerm [AStr (t_name t); AHandle c; ANum (t_tag t)] ::
      tstmts (S k) r (snd (handle (t_ty t) c))
  end.
Lemma fields_flat : forall fs k c, forallb no_float (map f_ty fs) = true ->
  fst (fields_code k fs c) = flat_map flat (fstmts k fs c).
Proof.
  induction fs as [|f fs IH]; intros k c N; auto. cbn [map forallb] in N.
  apply andb_true_iff in N as [N1 N2]. cbn [fields_code fstmts].
  pose proof (handle_flat (f_ty f) c N1) as H. specialize (IH (S k) (snd (handle (f_ty f) c)) N2).
  destruct (handle (f_ty f) c) as [th c1]. cbn [fst snd] in *.
  destruct (fields_code (S k) fs c1) as [tr c2]. cbn [fst] in *.
  rewrite flat_map_app, H, IH. reflexivity.
Qed.
Lemma terms_flat : forall ts k c, forallb no_float (map t_ty ts) = true ->
  fst (terms_code k ts c) = flat_map flat (tstmts k ts c).
Proof.
  induction ts as [|t ts IH]; intros k c N; auto. cbn [map forallb] in N.
  apply andb_true_iff in N as [N1 N2]. cbn [terms_code tstmts].
  pose proof (handle_flat (t_ty t) c N1) as H. specialize (IH (S k) (snd (handle (t_ty t) c)) N2).
  destruct (handle (t_ty t) c) as [th c1]. cbn [fst snd] in *.
  destruct (terms_code (S k) ts c1) as [tr c2]. cbn [fst] in *.
  rewrite flat_map_app, H, IH. reflexivity.
Qed.

Definition refield (f : field ty) : field ty := mkField (f_name f) (rebuilt (f_ty f)) (f_off f).
Definition reterm (t : term ty) : term ty := mkTerm (t_name t) (rebuilt (t_ty t)) (t_tag t) [].

(** The elements [k ..] of the array are [l]. *)
Definition elems (es : nat -> option built) (k : nat) (l : list built) : Prop :=
  forall i, (i < List.length l)%nat -> es (k + i)%nat = nth_error l i.
Lemma elems_tail : forall es k a l, elems es k (a :: l) -> es k = Some a /\ elems es (S k) l.
Proof.
  intros es k a l E. split.
  - specialize (E O ltac:(cbn; lia)). rewrite Nat.add_0_r in E. auto.
  - intros i I. specialize (E (S i) ltac:(cbn; lia)). rewrite <- plus_n_Sm in E. auto.
Qed.
Lemma collect_elems : forall A (get : built -> option A) (put : A -> built), (forall a, get (put a) = Some a) ->
  forall l es k, elems es k (map put l) -> collect get es k (List.length l) = Some l.
Proof.
  intros A get put G. induction l as [|a l IH]; intros es k E; auto.
  cbn [map] in E. apply elems_tail in E as [E1 E2]. cbn [List.length collect].
  rewrite E1, G, (IH _ _ E2). auto.
Qed.

Lemma run_fields : forall find bld rest fs us k c hs es,
  forallb no_float (map f_ty fs) = true ->
  traverse (fun f => option_map (fun t => mkField (f_name f) t (f_off f)) (wtree find (f_ty f))) fs
    = Some us ->
  (forall f n, In f fs -> leaf (f_ty f) = Some n -> bld (snd n) = option_map rebuilt (find n)) ->
  exists hs' es', run bld hs es (fstmts k fs c ++ rest) = run bld hs' es' rest /\
    elems es' k (map (fun f => VField (refield f)) us) /\
    (forall j, (j < k)%nat -> es' j = es j) /\ List.length us = List.length fs.
Proof.
  intros find bld rest. induction fs as [|f fs IH]; intros us k c hs es N T L.
  - injection T as <-. exists hs, es. repeat split; auto. intros i I. cbn in I. lia.
  - cbn [map forallb] in N. apply andb_true_iff in N as [N1 N2]. cbn [traverse] in T.
    destruct (wtree find (f_ty f)) as [u|] eqn:U; [|discriminate]. cbn [option_map] in T.
    destruct (traverse _ fs) as [vs|] eqn:V; [|discriminate]. injection T as <-.
    cbn [fstmts]. rewrite <- app_assoc. cbn [app].
    match goal with |- context [hstmts (f_ty f) c ++ ?x] =>
      destruct (run_handle find bld es (f_ty f) u c hs x N1 U
                  (fun n => L f n (or_introl eq_refl))) as (h1 & R1 & C1) end.
    rewrite R1. cbn [run call]. rewrite C1. cbn [option_map bits].
    destruct (IH vs (S k) (snd (handle (f_ty f) c)) h1
                (upd es k (VField (mkField (f_name f) (rebuilt u) (bytes (8 * f_off f)))))
                N2 eq_refl (fun g n I => L g n (or_intror I))) as (h2 & e2 & R2 & E2 & O2 & G2).
    exists h2, e2. split; [exact R2|]. split; [|split].
    + intros [|i] I.
      * rewrite Nat.add_0_r. rewrite O2 by lia. unfold upd. rewrite Nat.eqb_refl, bytes_bits. auto.
      * cbn [map List.length] in I. rewrite <- plus_n_Sm. apply (E2 i). lia.
    + intros j J. rewrite O2 by lia. unfold upd. destruct (Nat.eqb j k) eqn:Q; auto.
      apply Nat.eqb_eq in Q. lia.
    + cbn [List.length]. lia.
Qed.
Lemma run_terms : forall find bld rest ts us k c hs es,
  forallb no_float (map t_ty ts) = true ->
  traverse (fun t => option_map (fun u => mkTerm (t_name t) u (t_tag t) (t_attrs t))
                                (wtree find (t_ty t))) ts = Some us ->
  (forall f n, In f ts -> leaf (t_ty f) = Some n -> bld (snd n) = option_map rebuilt (find n)) ->
  exists hs' es', run bld hs es (tstmts k ts c ++ rest) = run bld hs' es' rest /\
    elems es' k (map (fun f => VTerm (reterm f)) us) /\
    (forall j, (j < k)%nat -> es' j = es j) /\ List.length us = List.length ts.
Proof.
  intros find bld rest. induction ts as [|f ts IH]; intros us k c hs es N T L.
  - injection T as <-. exists hs, es. repeat split; auto. intros i I. cbn in I. lia.
  - cbn [map forallb] in N. apply andb_true_iff in N as [N1 N2]. cbn [traverse] in T.
    destruct (wtree find (t_ty f)) as [u|] eqn:U; [|discriminate]. cbn [option_map] in T.
    destruct (traverse _ ts) as [vs|] eqn:V; [|discriminate]. injection T as <-.
    cbn [tstmts]. rewrite <- app_assoc. cbn [app].
    match goal with |- context [hstmts (t_ty f) c ++ ?x] =>
      destruct (run_handle find bld es (t_ty f) u c hs x N1 U
                  (fun n => L f n (or_introl eq_refl))) as (h1 & R1 & C1) end.
    rewrite R1. cbn [run call]. rewrite C1. cbn [option_map].
    destruct (IH vs (S k) (snd (handle (t_ty f) c)) h1
                (upd es k (VTerm (mkTerm (t_name f) (rebuilt u) (t_tag f) [])))
                N2 eq_refl (fun g n I => L g n (or_intror I))) as (h2 & e2 & R2 & E2 & O2 & G2).
    exists h2, e2. split; [exact R2|]. split; [|split].
    + intros [|i] I.
      * rewrite Nat.add_0_r. rewrite O2 by lia. unfold upd. rewrite Nat.eqb_refl. auto.
      * cbn [map List.length] in I. rewrite <- plus_n_Sm. apply (E2 i). lia.
    + intros j J. rewrite O2 by lia. unfold upd. destruct (Nat.eqb j k) eqn:Q; auto.
      apply Nat.eqb_eq in Q. lia.
    + cbn [List.length]. lia.
Qed.

Lemma run_builder : forall find bld n d u c,
  forallb no_float (parts d) = true -> dtree find d = Some u ->
  (forall p m, In p (parts d) -> leaf p = Some m -> bld (snd m) = option_map rebuilt (find m)) ->
  run_body bld (fst (builder n d c)) = Some (VTy (rebuilt u)).
Proof.
  intros find bld n d u c N T L. destruct d as [fs size al|x ts]; cbn [parts dtree builder] in *.
  - destruct (traverse _ fs) as [us|] eqn:V; [|discriminate]. injection T as <-.
    pose proof (fields_flat fs 0 c N) as F. destruct (fields_code 0 fs c) as [tf c1]. cbn [fst] in *.
    subst tf. unfold run_body.
    match goal with |- context [parse None (?a ++ [?o; ?x1; ?x2; ?x3; ?x4; Semi; Return ?h])] =>
      replace (a ++ [o; x1; x2; x3; x4; Semi; Return h]) with
        (flat_map flat (fstmts 0 fs c ++
           [Do (ToHandle h) MkStruct [AName n; ANum (Z.of_nat (List.length fs)); bits size; bits al];
            Give h])) by (rewrite flat_map_app; reflexivity) end.
    rewrite parse_flat.
    destruct (run_fields find bld
      [Do (ToHandle (S c1)) MkStruct [AName n; ANum (Z.of_nat (List.length fs)); bits size; bits al];
       Give (S c1)] fs us 0 c (fun _ => None) (fun _ => None) N V) as (hs & es & R & E & _ & G).
    { intros f m I. apply L. apply in_map. auto. }
    rewrite R. cbn [run call]. unfold bits. rewrite Nat2Z.id, <- G.
    replace (List.length us) with (List.length (map refield us)) by apply map_length.
    rewrite (collect_elems _ get_field VField) by (auto; rewrite map_map; auto).
    cbn [option_map run]. unfold upd. rewrite Nat.eqb_refl, !bytes_bits. reflexivity.
  - destruct (traverse _ ts) as [us|] eqn:V; [|discriminate]. injection T as <-.
    pose proof (terms_flat ts 0 c N) as F. destruct (terms_code 0 ts c) as [tf c1]. cbn [fst] in *.
    subst tf. unfold run_body.
    set (fin := [Do (ToHandle (S c1)) (if x_outline x then MkOutline else MkInline)
           ([AName n; ANum (Z.of_nat (List.length ts)); ANum (Z.of_nat (x_default x))] ++
            (if x_outline x
             then [bits (x_tag_w x); bits (x_align x); bits (x_term_off x)]
             else [bits (x_term_off x); bits (x_tag_off x); bits (x_tag_w x);
                   bits (x_size x); bits (x_align x)])); Give (S c1)]).
    match goal with |- context [parse None ?l] =>
      replace l with (flat_map flat (tstmts 0 ts c ++ fin))
        by (rewrite flat_map_app; subst fin; destruct (x_outline x); reflexivity) end.
    rewrite parse_flat.
    destruct (run_terms find bld fin ts us 0 c (fun _ => None) (fun _ => None) N V)
      as (hs & es & R & E & _ & G).
    { intros f m I. apply L. apply in_map. auto. }
    rewrite R. subst fin. unfold revar. cbn [rebuilt]. unfold revar.
    replace (List.length ts) with (List.length (map reterm us)) by (rewrite map_length; auto).
    destruct x as [[|] xd xo xt xw xs xa]; cbn [x_outline x_default x_term_off x_tag_off x_tag_w x_size x_align app run call];
      unfold bits; rewrite !Nat2Z.id;
      rewrite (collect_elems _ get_term VTerm) by (auto; rewrite map_map; auto);
      cbn [option_map run]; unfold upd; rewrite Nat.eqb_refl, !bytes_bits; reflexivity.
Qed.

(** ** Linking *)
Lemma link_app : forall l n code bld b t,
  link l bld = Some b -> b n = None -> run_body b code = Some (VTy t) ->
  link (l ++ [(n, code)]) bld = Some (fun m => if qname_eqb n m then Some t else b m).
Proof.
  induction l as [|[m co] l IH]; intros n code bld b t L B R; cbn [app link] in *.
  - injection L as ->. rewrite B, R. auto.
  - destruct (bld m); [discriminate|]. destruct (run_body bld co) as [[]|]; try discriminate.
    apply IH; auto.
Qed.

(** After writing [o]: the specialisations are those in [o], and each builds what
    its type stands for. *)
Definition printed (o : gst) : list (qname * list tok) :=
  map (fun e => (snd (fst e), snd e)) (g_done o).
Section LINK.
Variable G : key -> option ty.
(** All types in use; they have different names. *)
Variable K : key -> Prop.
Hypothesis K_inj : forall a b, K a -> K b -> snd a = snd b -> a = b.

Definition linked (o : gst) : Prop :=
  (forall n, written n o = true -> K n) /\
  exists b, link (printed o) (fun _ => None) = Some b /\
    (forall n, written n o = true -> b (snd n) = option_map rebuilt (G n)) /\
    (forall q, (forall n, written n o = true -> snd n <> q) -> b q = None).

Lemma written_app : forall n m c k o,
  written n (mkG (g_done o ++ [(m, c)]) k) = written n o || key_eqb m n.
Proof. intros. unfold written. cbn [g_done]. rewrite existsb_app. cbn [existsb fst]. rewrite orb_false_r. auto. Qed.

(** [comp] writes the definition of [n], and no other than those of [S]. *)
Definition adds (S : key -> Prop) (comp : key -> gst -> gst) (n : key) : Prop :=
  forall o, linked o -> written n o = false ->
    linked (comp n o) /\ written n (comp n o) = true /\
    (forall m, written m o = true -> written m (comp n o) = true) /\
    (forall m, written m (comp n o) = true -> written m o = true \/ S m).

Lemma add_type_adds : forall S comp t o,
  (forall n, leaf t = Some n -> adds S comp n) -> linked o ->
  linked (add_type comp t o) /\
  (forall n, leaf t = Some n -> written n (add_type comp t o) = true) /\
  (forall m, written m o = true -> written m (add_type comp t o) = true) /\
  (forall m, written m (add_type comp t o) = true -> written m o = true \/ S m).
Proof.
  intros S comp t. induction t as [w al s|w al| |n|e IH len esz al|e IH p]; intros o A L;
    cbn [add_type leaf] in *; try (split; [exact L|repeat split; auto; discriminate]); auto.
  destruct (written n o) eqn:W.
  - split; [exact L|]. repeat split; auto. intros m E. injection E as <-. auto.
  - destruct (A n eq_refl o L W) as (A1 & A2 & A3 & A4). split; [exact A1|]. repeat split; auto.
    intros m E. injection E as <-. auto.
Qed.
Lemma add_types_adds : forall S comp l o,
  (forall t n, In t l -> leaf t = Some n -> adds S comp n) -> linked o ->
  linked (add_types comp l o) /\
  (forall t n, In t l -> leaf t = Some n -> written n (add_types comp l o) = true) /\
  (forall m, written m o = true -> written m (add_types comp l o) = true) /\
  (forall m, written m (add_types comp l o) = true -> written m o = true \/ S m).
Proof.
  intros S comp. unfold add_types. induction l as [|t l IH]; intros o A L; cbn [fold_left].
  - split; [exact L|]. repeat split; auto; try (intros t n []); try contradiction.
  - destruct (add_type_adds S comp t o (fun n => A t n (or_introl eq_refl)) L) as (L1 & W1 & M1 & S1).
    destruct (IH (add_type comp t o) (fun u n I => A u n (or_intror I)) L1) as (L2 & W2 & M2 & S2).
    split; auto. split; [|split].
    + intros u n [<-|I] E; [apply M2; auto|eapply W2; eauto].
    + auto.
    + intros m W. apply S2 in W as [W|W]; auto.
Qed.

Lemma named_in : forall env n u, named env n = Some u -> In n (map fst env).
Proof.
  induction env as [|[m d] r IH]; intros n u E; cbn [named map fst] in *; [discriminate|].
  destruct (key_eqb m n) eqn:Q; [left; apply key_eqb_eq; auto|right; eapply IH; eauto].
Qed.
Lemma traverse_in : forall A B (f : A -> option B) l us, traverse f l = Some us ->
  forall a, In a l -> exists b, f a = Some b.
Proof.
  induction l as [|x l IH]; intros us T a []; cbn [traverse] in T.
  - subst. destruct (f a); [eauto|discriminate].
  - destruct (f x); [|discriminate]. destruct (traverse f l) eqn:E; [|discriminate]. eauto.
Qed.
Lemma leaf_named : forall find t u n, wtree find t = Some u -> leaf t = Some n ->
  exists v, find n = Some v.
Proof.
  induction t as [w al s|w al| |m|e IH len esz al|e IH p]; intros u n T L; cbn [wtree leaf] in *;
    try discriminate.
  - injection L as ->. eauto.
  - destruct (wtree find e); [eauto|discriminate].
  - destruct (wtree find e); [eauto|discriminate].
Qed.
Lemma dtree_named : forall find d u p n, dtree find d = Some u -> In p (parts d) ->
  leaf p = Some n -> exists v, find n = Some v.
Proof.
  intros find [fs size al|x ts] u p n T I L; cbn [dtree parts] in *.
  - destruct (traverse _ fs) as [us|] eqn:V; [|discriminate]. apply in_map_iff in I as (f & <- & I).
    destruct (traverse_in _ _ _ _ _ V _ I) as (b & B).
    destruct (wtree find (f_ty f)) eqn:W; [|discriminate]. eapply leaf_named; eauto.
  - destruct (traverse _ ts) as [us|] eqn:V; [|discriminate]. apply in_map_iff in I as (f & <- & I).
    destruct (traverse_in _ _ _ _ _ V _ I) as (b & B).
    destruct (wtree find (t_ty f)) eqn:W; [|discriminate]. eapply leaf_named; eauto.
Qed.

Lemma add_named_adds : forall env, NoDup (map fst env) -> no_floats env = true ->
  (forall n, In n (map fst env) -> G n = named env n /\ K n) ->
  forall n u, named env n = Some u -> adds (fun m => In m (map fst env)) (add_named env) n.
Proof.
  induction env as [|[m d] r IH]; intros ND NF GE n u U; [discriminate|].
  cbn [map fst] in *. inversion ND as [|? ? NI ND']; subst. cbn [no_floats forallb snd] in NF.
  apply andb_true_iff in NF as [NF1 NF2]. change (no_floats r = true) in NF2.
  assert (GR : forall k, In k (map fst r) -> G k = named r k /\ K k).
  { intros k I. destruct (GE k (or_intror I)) as [E J]. split; auto. rewrite E. cbn [named].
    destruct (key_eqb m k) eqn:Q; auto. apply key_eqb_eq in Q. subst. contradiction. }
  specialize (IH ND' NF2 GR). cbn [named] in U. intros o L W. cbn [add_named].
  destruct (key_eqb m n) eqn:Q.
  - apply key_eqb_eq in Q. subst m.
    destruct (GE n (or_introl eq_refl)) as [GN KN].
    destruct (add_types_adds (fun k => In k (map fst r)) (add_named r) (parts d) o) as (L1 & W1 & M1 & S1); auto.
    { intros t k I E. destruct (dtree_named _ _ _ _ _ U I E) as (v & V). eapply IH; eauto. }
    assert (N1 : written n (add_types (add_named r) (parts d) o) = false).
    { destruct (written n (add_types (add_named r) (parts d) o)) eqn:X; auto. apply S1 in X as [X|X]; [congruence|contradiction]. }
    set (o1 := add_types (add_named r) (parts d) o) in *.
    destruct L1 as (KO & b & LB & B1 & B2).
    pose proof (run_builder (named r) b (snd n) d u (g_next o1) NF1 U) as RB.
    destruct (builder (snd n) d (g_next o1)) as [code c]. cbn [fst] in RB.
    assert (RC : run_body b code = Some (VTy (rebuilt u))).
    { apply RB. intros p k I E. rewrite B1 by (eapply W1; eauto).
      destruct (dtree_named _ _ _ _ _ U I E) as (v & V).
      rewrite (proj1 (GR k (named_in _ _ _ V))). auto. }
    cbn [named] in GN. rewrite (proj2 (key_eqb_eq n n) eq_refl), U in GN.
    assert (BN : b (snd n) = None).
    { apply B2. intros k W2 E. assert (k = n) by (apply K_inj; auto). subst. congruence. }
    split; [split|split; [|split]].
    + intros k X. rewrite written_app in X. apply orb_true_iff in X as [X|X]; auto.
      apply key_eqb_eq in X. subst. auto.
    + eexists. split.
      { unfold printed. cbn [g_done]. rewrite map_app. cbn [map fst snd]. apply link_app; eauto. }
      split.
      * intros k X. rewrite written_app in X. destruct (key_eqb n k) eqn:Q.
        -- apply key_eqb_eq in Q. subst k. rewrite (proj2 (qname_eqb_eq _ _) eq_refl), GN. auto.
        -- rewrite orb_false_r in X. destruct (qname_eqb (snd n) (snd k)) eqn:Y; auto.
           apply qname_eqb_eq in Y. assert (n = k) by (apply K_inj; auto). subst.
           rewrite (proj2 (key_eqb_eq _ _) eq_refl) in Q. discriminate.
      * intros q X. destruct (qname_eqb (snd n) q) eqn:Y.
        -- apply qname_eqb_eq in Y. exfalso. apply (X n); auto.
           rewrite written_app, (proj2 (key_eqb_eq n n) eq_refl). apply orb_true_r.
        -- apply B2. intros k W2. apply X. rewrite written_app, W2. auto.
    + rewrite written_app, (proj2 (key_eqb_eq n n) eq_refl). apply orb_true_r.
    + intros k X. rewrite written_app, (M1 k X). auto.
    + intros k X. rewrite written_app in X. apply orb_true_iff in X as [X|X].
      * apply S1 in X as [X|X]; auto. right. right. auto.
      * right. left. apply key_eqb_eq. auto.
  - destruct (IH n u U o L W) as (A1 & A2 & A3 & A4). split; [exact A1|]. repeat split; auto.
    intros k X. apply A4 in X as [X|X]; auto. right. right. auto.
Qed.

End LINK.

Lemma names_inj : forall env, NoDup (names env) ->
  forall a b, In a (map fst env) -> In b (map fst env) -> snd a = snd b -> a = b.
Proof.
  unfold names. induction env as [|e r IH]; intros ND a b IA IB E; [destruct IA|].
  cbn [map] in *. inversion ND as [|? ? NI ND']; subst.
  assert (X : forall c, In c (map fst r) -> snd c = snd (fst e) -> False).
  { intros c I F. apply NI. apply in_map_iff in I as (x & <- & I). apply in_map_iff.
    exists x. auto. }
  destruct IA as [<-|IA], IB as [<-|IB]; auto; exfalso; eauto.
Qed.
Lemma names_keys : forall env, NoDup (names env) -> NoDup (map fst env).
Proof.
  unfold names. induction env as [|e r IH]; intros ND; cbn [map] in *; constructor;
    inversion ND as [|? ? NI ND']; subst; auto.
  intro I. apply NI. apply in_map_iff in I as (x & E & I). apply in_map_iff. exists x.
  split; auto. exact (f_equal snd E).
Qed.

Theorem rebuild_write : forall env head t off,
  NoDup (names env) -> no_floats env = true -> no_float head = true ->
  wtree (named env) head = Some t ->
  rebuild (write env head off) = Some (mkProto (rebuilt t) off).
Proof.
  intros env head t off ND NF NH T. pose proof (names_inj env ND) as KI.
  set (K := fun n => In n (map fst env)).
  assert (L0 : linked (named env) K (mkG [] 0)).
  { split; [intros n W; discriminate|]. exists (fun _ => None). repeat split; auto. intros n W. discriminate. }
  destruct (add_type_adds (named env) K (fun m => In m (map fst env)) (add_named env) head (mkG [] 0))
    as (L1 & W1 & _ & _); auto.
  { intros n E. destruct (leaf_named _ _ _ _ T E) as (v & V).
    eapply (add_named_adds (named env) K KI); eauto. apply names_keys; auto. }
  unfold write. set (o := add_type (add_named env) head (mkG [] 0)) in *.
  destruct L1 as (_ & b & LB & B1 & B2).
  pose proof (handle_flat head (g_next o) NH) as H. destruct (handle head (g_next o)) as [th c].
  cbn [fst] in H. subst th. unfold rebuild. cbn [h_types h_proto]. fold (printed o). rewrite LB.
  unfold run_body.
  match goal with |- context [parse None ?l] =>
    replace l with (flat_map flat (hstmts head (g_next o) ++
                      [Do ToReturn MkProtocol [AHandle (g_next o); bits off]]))
      by (rewrite flat_map_app; reflexivity) end.
  rewrite parse_flat.
  destruct (run_handle (named env) b (fun _ => None) head t (g_next o) (fun _ => None)
             [Do ToReturn MkProtocol [AHandle (g_next o); bits off]] NH T) as (hs & R & C).
  { intros n E. apply B1. auto. }
  rewrite R. cbn [run call bits]. rewrite C. cbn [option_map]. rewrite bytes_bits. auto.
Qed.

(** ** Planned protocols *)
(** Hints are settled, elements are packed, and the head of an outlined variant is
    its tag. *)
Fixpoint neat (t : ty) : Prop :=
  match t with
  | TStruct fs _ _ => fold_right (fun f P => neat (f_ty f) /\ P) True fs
  | TVar x ts => (x_outline x = true -> x_tag_off x = 0 /\ x_size x = x_tag_w x) /\
                 fold_right (fun t P => neat (t_ty t) /\ P) True ts
  | TArr e _ _ _ => neat e
  | TVec e p => (v_wmin p = v_min p /\ v_ew p = align_up (hsize e) (halign e)) /\ neat e
  | _ => True
  end.

Lemma neat_layout : forall t, neat (layout t).
Proof.
  induction t as [w al sg|w al| |fs size al IH|x ts IH|e len esz al IH|e p IH]
    using ty_ind2; try exact I; cbn [layout]; auto.
  - destruct (lay_fields 0 _) as [fs' e] eqn:L. cbn [neat].
    rewrite (forall_in _ (fun f => neat (f_ty f))).
    intros f F. destruct (lay_fields_in _ _ _ _ _ L F) as (n & N).
    apply in_map_iff in N as (g & E & G). injection E as _ <-.
    rewrite Forall_forall in IH. auto.
  - unfold lay_var. destruct (intern _ _) as [ts' d] eqn:N. cbn [neat]. split.
    + destruct (x_outline x); cbn [x_outline x_tag_off x_size x_tag_w]; auto. discriminate.
    + rewrite (forall_in _ (fun f => neat (t_ty f))). intros t I.
      pose proof (intern_perm (map (fun t => mkTerm (t_name t) (layout (t_ty t)) (t_tag t)
                                      (t_attrs t)) ts) (x_default x)) as P.
      rewrite N in P. cbn [fst] in P. apply (Permutation_in _ P) in I.
      apply in_map_iff in I as (g & <- & G). cbn [t_ty]. rewrite Forall_forall in IH. auto.
  - cbn [neat]. split; auto.
Qed.

Lemma neat_term_off : forall t o, neat t -> neat (set_term_off o t).
Proof.
  induction t as [w al sg|w al| |fs size al IH|x ts IH|e len esz al IH|e p IH]
    using ty_ind2; intros o T; cbn [set_term_off]; auto.
  - cbn [neat] in *. rewrite (forall_in _ (fun f => neat (f_ty f))) in *. intros f F.
    apply in_map_iff in F as (g & <- & G). cbn [f_ty]. rewrite Forall_forall in IH. auto.
  - destruct (x_outline x) eqn:E; auto. cbn [neat x_outline x_tag_off x_size x_tag_w] in *.
    destruct T as [T1 T2]. split; auto.
Qed.

Lemma planned_neat : forall s tp pr, planned s tp pr -> neat (p_head pr).
Proof.
  intros s tp pr (sel & ->). unfold plan_where, gen_offsets.
  destruct (has_outline _); cbn [p_head]; [apply neat_term_off|]; apply neat_layout.
Qed.

Lemma drop_hsize : forall t, hsize (drop t) = hsize t.
Proof. destruct t; reflexivity. Qed.
Lemma drop_halign : forall t, halign (drop t) = halign t.
Proof. destruct t; reflexivity. Qed.

Lemma rebuilt_drop : forall t, neat t -> rebuilt t = drop t.
Proof.
  induction t as [w al sg|w al| |fs size al IH|x ts IH|e len esz al IH|e p IH]
    using ty_ind2; intro N; cbn [rebuilt drop neat] in *; auto.
  - f_equal. rewrite (forall_in _ (fun f => neat (f_ty f))) in N. rewrite Forall_forall in IH.
    apply map_ext_in. intros f I. rewrite IH; auto.
  - destruct N as [N1 N2]. f_equal.
    + unfold revar. destruct x as [[|] xd xo xt xw xs xa]; auto. cbn in *.
      destruct (N1 eq_refl) as [-> ->]. auto.
    + rewrite (forall_in _ (fun f => neat (t_ty f))) in N2. rewrite Forall_forall in IH.
      apply map_ext_in. intros f I. rewrite IH; auto.
  - rewrite IH; auto.
  - destruct N as [[N1 N2] N3]. rewrite IH by auto. f_equal. rewrite drop_hsize, drop_halign.
    destruct p. cbn in *. subst. auto.
Qed.

(** No term was split, so none has an attribute. *)
Fixpoint unsplit (t : ty) : Prop :=
  match t with
  | TStruct fs _ _ => fold_right (fun f P => unsplit (f_ty f) /\ P) True fs
  | TVar x ts => fold_right (fun t P => (t_attrs t = [] /\ unsplit (t_ty t)) /\ P) True ts
  | TArr e _ _ _ => unsplit e
  | TVec e p => unsplit e
  | _ => True
  end.
Lemma drop_unsplit : forall t, unsplit t -> drop t = t.
Proof.
  induction t as [w al sg|w al| |fs size al IH|x ts IH|e len esz al IH|e p IH]
    using ty_ind2; intro U; cbn [drop unsplit] in *; auto.
  - rewrite (forall_in _ (fun f => unsplit (f_ty f))) in U. rewrite Forall_forall in IH.
    rewrite map_same; auto. intros f F. rewrite IH; auto. destruct f; auto.
  - rewrite (forall_in _ (fun f => t_attrs f = [] /\ unsplit (t_ty f))) in U.
    rewrite Forall_forall in IH. rewrite map_same; auto. intros f F.
    destruct (U f F) as [E V]. rewrite IH; auto. destruct f. cbn in *. subst. auto.
  - rewrite IH; auto.
  - rewrite IH; auto.
Qed.

(** ** C48 *)
Theorem C48_same_proof : forall s tp pr env head,
  planned s tp pr -> wtree (named env) head = Some (p_head pr) ->
  NoDup (names env) -> no_floats env = true -> no_float head = true ->
  unsplit (p_head pr) ->
  rebuild (write env head (p_bufoff pr)) = Some pr.
Proof.
  intros s tp pr env head P T ND NF NH U.
  rewrite (rebuild_write env head _ (p_bufoff pr) ND NF NH T).
  rewrite rebuilt_drop by (eapply planned_neat; eauto). rewrite drop_unsplit by auto.
  destruct pr; auto.
Qed.

Theorem C48_decoder_proof : forall s tp pr env head,
  planned s tp pr -> wtree (named env) head = Some (p_head pr) ->
  NoDup (names env) -> no_floats env = true -> no_float head = true ->
  exists pr', rebuild (write env head (p_bufoff pr)) = Some pr' /\
    forall fconv host hs msg obj dbuf dsize m,
      decode fconv pr' host hs msg obj dbuf dsize m = decode fconv pr host hs msg obj dbuf dsize m.
Proof.
  intros s tp pr env head P T ND NF NH. exists (mkProto (rebuilt (p_head pr)) (p_bufoff pr)).
  split; [apply rebuild_write; auto|]. intros.
  rewrite rebuilt_drop by (eapply planned_neat; eauto). rewrite decode_deaf. destruct pr; auto.
Qed.
