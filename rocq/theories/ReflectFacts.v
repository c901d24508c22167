(** What reflect, unreflect and pj::Any preserve. *)
From Verif Require Import Base Types Transcode Spec Gen Api ApiFacts Plan MemFacts Exec Main
  PlanConv PlanHoist PlanWf PlanLay PlanShape PlanKeep Schema Ends Claims Round Space CoreFacts
  Check Demo BinCompatFacts Reflect.
From Coq Require Import Permutation.
Local Open Scope Z_scope.

(** ** Specification *)

(** The vector hint for planning is gone; everything else is kept. *)
Fixpoint forget (t : ty) : ty :=
  match t with
  | TInt _ _ _ | TFloat _ _ | TUnit => t
  | TStruct fs size al =>
      TStruct (map (fun f => mkField (f_name f) (forget (f_ty f)) (f_off f)) fs) size al
  | TVar x ts =>
      TVar x (map (fun t => mkTerm (t_name t) (forget (t_ty t)) (t_tag t) (t_attrs t)) ts)
  | TArr e len esz al => TArr (forget e) len esz al
  | TVec e p =>
      TVec (forget e) (mkVec (v_min p) (v_max p) 0 (v_ppl p) (v_len_off p) (v_len_sz p)
                             (v_ref_off p) (v_ref_sz p) (v_mode p) (v_inl_off p)
                             (v_part_off p) (v_ew p) (v_size p) (v_align p))
  end.

(** Floats have four or eight bytes; the head of an outlined variant is its tag. *)
Fixpoint simple (t : ty) : Prop :=
  match t with
  | TFloat w _ => w = 4 \/ w = 8
  | TStruct fs _ _ => fold_right (fun f P => simple (f_ty f) /\ P) True fs
  | TVar x ts => (x_outline x = true -> x_tag_off x = 0 /\ x_size x = x_tag_w x) /\
                 fold_right (fun t P => simple (t_ty t) /\ P) True ts
  | TArr e _ _ _ => simple e
  | TVec e _ => simple e
  | _ => True
  end.

(** ** unreflect and growing pools *)
Lemma at_pool_app : forall l x i r, at_pool l i = Some r -> at_pool (l ++ x) i = Some r.
Proof.
  unfold at_pool. intros l x i r H. destruct (i <? 0); [discriminate|].
  rewrite nth_error_app1; auto. apply nth_error_Some. congruence.
Qed.

Lemma all_ext : forall A B (f g : A -> option B) l r,
  (forall x y, In x l -> f x = Some y -> g x = Some y) -> all f l = Some r -> all g l = Some r.
Proof.
  induction l as [|a l IH]; intros r E H; cbn [all] in *; auto.
  destruct (f a) as [y|] eqn:F; [|discriminate].
  change ((fix go l := match l with [] => Some [] | x :: r =>
    match f x, go r with Some y, Some ys => Some (y :: ys) | _, _ => None end end) l)
    with (all f l) in H.
  change ((fix go l := match l with [] => Some [] | x :: r =>
    match g x, go r with Some y, Some ys => Some (y :: ys) | _, _ => None end end) l)
    with (all g l).
  destruct (all f l) as [ys|] eqn:A'; [|discriminate]. injection H as <-.
  rewrite (E a y) by (cbn; auto). rewrite (IH ys); auto. intros; apply E; cbn; auto.
Qed.

Lemma unreflect_grow : forall n l i t n' x, unreflect_ty n l i = Some t -> (n <= n')%nat ->
  unreflect_ty n' (l ++ x) i = Some t.
Proof.
  induction n as [|n IH]; intros l i t n' x H L; [discriminate|].
  destruct n' as [|n']; [lia|]. cbn [unreflect_ty] in *.
  destruct (at_pool l i) as [r|] eqn:A; [|discriminate]. rewrite (at_pool_app _ x _ _ A).
  assert (S : forall j u, unreflect_ty n l j = Some u -> unreflect_ty n' (l ++ x) j = Some u).
  { intros; eapply IH; eauto; lia. }
  destruct r; auto.
  - match type of H with match ?a with _ => _ end = _ => destruct a as [fs'|] eqn:E; [|discriminate] end.
    erewrite all_ext; [exact H| |exact E]. cbn beta. intros f y _ F.
    destruct (unreflect_ty n l _) as [u|] eqn:U; [|discriminate]. rewrite (S _ _ U). auto.
  - match type of H with match ?a with _ => _ end = _ => destruct a as [fs'|] eqn:E; [|discriminate] end.
    erewrite all_ext; [exact H| |exact E]. cbn beta. intros f y _ F.
    destruct (unreflect_ty n l _) as [u|] eqn:U; [|discriminate]. rewrite (S _ _ U). auto.
  - match type of H with match ?a with _ => _ end = _ => destruct a as [fs'|] eqn:E; [|discriminate] end.
    erewrite all_ext; [exact H| |exact E]. cbn beta. intros f y _ F.
    destruct (unreflect_ty n l _) as [u|] eqn:U; [|discriminate]. rewrite (S _ _ U). auto.
  - destruct (unreflect_ty n l _) as [u|] eqn:U; [|discriminate]. rewrite (S _ _ U). auto.
  - destruct (unreflect_ty n l _) as [u|] eqn:U; [|discriminate]. rewrite (S _ _ U). auto.
Qed.

(** ** The pool after a reflect *)
Section REFL.
Variable same : ty -> ty -> bool.
Hypothesis same_eq : forall a b, same a b = true -> a = b.

Definition there (l : pool) (i : Z) (t : ty) : Prop :=
  0 <= i < pool_len l /\ unreflect_ty (S (Z.to_nat i)) l i = Some (forget t).
Definition good (s : pool * cache) : Prop := forall t i, In (t, i) (snd s) -> there (fst s) i t.

Lemma pool_len_app : forall a b, pool_len (a ++ b) = pool_len a + pool_len b.
Proof. intros. unfold pool_len. rewrite app_length. lia. Qed.
Lemma pool_len_nonneg : forall a, 0 <= pool_len a.
Proof. intros. unfold pool_len. lia. Qed.

Lemma there_grow : forall l x i t, there l i t -> there (l ++ x) i t.
Proof.
  intros l x i t [B U]. split.
  - rewrite pool_len_app. pose proof (pool_len_nonneg x). lia.
  - eapply unreflect_grow; eauto.
Qed.

(** Pools only grow. *)
Definition grows (f : pool * cache -> (pool * cache) * Z) : Prop :=
  forall s s' i, f s = (s', i) -> exists x, fst s' = fst s ++ x.

Lemma visit_grows : forall fs, Forall grows fs -> forall s s' is, visit fs s = (s', is) ->
  (exists x, fst s' = fst s ++ x) /\ List.length is = List.length fs.
Proof.
  induction 1 as [|f fs H F IH]; intros s s' is V; cbn [visit] in V.
  - injection V as <- <-. split; [exists []; rewrite app_nil_r|]; auto.
  - destruct (f s) as [s1 i] eqn:E1. destruct (visit fs s1) as [s2 js] eqn:E2.
    injection V as <- <-. destruct (H _ _ _ E1) as (x & X). destruct (IH _ _ _ E2) as ((y & Y) & L).
    split; [|cbn; congruence]. exists (x ++ y). rewrite Y, X, app_assoc. auto.
Qed.

Lemma reflect_grows : forall t, grows (reflect_ty same t).
Proof.
  induction t as [w al sg|w al| |fs size al IH|x ts IH|e len esz al IH|e p IH]
    using ty_ind2; intros s s' i E; cbn [reflect_ty] in E;
    (destruct (find _ (snd s)) as [e0|];
     [injection E as <- <-; exists []; rewrite app_nil_r; auto|]).
  - injection E as <- <-. cbn [fst push]. eauto.
  - injection E as <- <-. cbn [fst push]. eauto.
  - injection E as <- <-. cbn [fst push]. eauto.
  - destruct (visit _ s) as [s1 is] eqn:V. injection E as <- <-. cbn [fst push].
    destruct (visit_grows _ ltac:(apply Forall_map; exact IH) _ _ _ V) as ((x & X) & _).
    rewrite X, <- app_assoc. eauto.
  - destruct (visit _ s) as [s1 is] eqn:V.
    destruct (visit_grows _ ltac:(apply Forall_map; exact IH) _ _ _ V) as ((y & X) & _).
    destruct (x_outline x); injection E as <- <-; cbn [fst push]; rewrite X, <- app_assoc; eauto.
  - destruct (reflect_ty same e s) as [s1 j] eqn:V. destruct (IH _ _ _ V) as (x & X).
    injection E as <- <-. cbn [fst push]. rewrite X, <- app_assoc. eauto.
  - destruct (reflect_ty same e s) as [s1 j] eqn:V. destruct (IH _ _ _ V) as (x & X).
    injection E as <- <-. cbn [fst push]. rewrite X, <- app_assoc. eauto.
Qed.

(** Reflecting one type. *)
Definition step_ok (t : ty) : Prop :=
  forall s s' i, good s -> reflect_ty same t s = (s', i) -> pool_len (fst s') < 2 ^ 31 ->
  good s' /\ there (fst s') i t.

Lemma visit_ok : forall ts, Forall step_ok ts ->
  forall s s' is, good s -> visit (map (reflect_ty same) ts) s = (s', is) ->
  pool_len (fst s') < 2 ^ 31 ->
  good s' /\ Forall2 (fun t i => there (fst s') i t) ts is.
Proof.
  induction 1 as [|t ts H F IH]; intros s s' is G V L; cbn [map visit] in V.
  - injection V as <- <-. split; auto.
  - destruct (reflect_ty same t s) as [s1 i] eqn:E1.
    destruct (visit _ s1) as [s2 js] eqn:E2. injection V as <- <-.
    destruct (visit_grows (map (reflect_ty same) ts)
                ltac:(apply Forall_map, Forall_forall; intros; apply reflect_grows) _ _ _ E2)
      as ((y & Y) & _).
    destruct (H _ _ _ G E1) as [G1 T1].
    { rewrite Y, pool_len_app in L. pose proof (pool_len_nonneg y). lia. }
    destruct (IH _ _ _ G1 E2 L) as [G2 T2]. split; auto. constructor; auto.
    rewrite Y. apply there_grow; auto.
Qed.

(** A new entry on top of a good pool. *)
Lemma at_top : forall l r, at_pool (l ++ [r]) (pool_len l) = Some r.
Proof.
  intros. unfold at_pool, pool_len. destruct (Z.ltb_spec (Z.of_nat (List.length l)) 0); [lia|].
  rewrite Nat2Z.id, nth_error_app2, Nat.sub_diag; auto.
Qed.

Lemma rel_there : forall s r j t, there (fst s) j t -> pool_len (fst s ++ [r]) < 2 ^ 31 ->
  unreflect_ty (Z.to_nat (pool_len (fst s))) (fst s ++ [r]) (pool_len (fst s) + rel s j) =
  Some (forget t).
Proof.
  intros s r j t [B U] L. unfold rel, int32. rewrite pool_len_app in L.
  change (pool_len [r]) with 1 in L. rewrite sgnw_id by lia.
  replace (pool_len (fst s) + (j - pool_len (fst s))) with j by ring.
  eapply unreflect_grow; [exact U|]. lia.
Qed.

Lemma new_there : forall s t r, good s ->
  unreflect_ty (S (Z.to_nat (pool_len (fst s)))) (fst s ++ [r]) (pool_len (fst s)) =
    Some (forget t) ->
  good (fst (push r s), (t, pool_len (fst (push r s)) - 1) :: snd (push r s)) /\
  there (fst (push r s)) (pool_len (fst (push r s)) - 1) t.
Proof.
  intros s t r G U. cbn [push fst snd].
  replace (pool_len (fst s ++ [r]) - 1) with (pool_len (fst s))
    by (rewrite pool_len_app; change (pool_len [r]) with 1; ring).
  assert (T : there (fst s ++ [r]) (pool_len (fst s)) t).
  { split; auto. rewrite pool_len_app. change (pool_len [r]) with 1.
    pose proof (pool_len_nonneg (fst s)). lia. }
  split; auto. intros u j [E|I]; [injection E as <- <-; auto|]. cbn [snd fst].
  apply there_grow. apply G. auto.
Qed.

Lemma plain_fields : forall fs sz al, simple (TStruct fs sz al) <-> forall f, In f fs -> simple (f_ty f).
Proof.
  intros fs sz al. cbn [simple]. induction fs as [|f fs IH]; cbn [fold_right In]; [tauto|].
  rewrite IH. split; [intros [H1 H2] g [<-|I]; auto|intro H; split; auto].
Qed.
Lemma plain_terms : forall x ts, simple (TVar x ts) <->
  (x_outline x = true -> x_tag_off x = 0 /\ x_size x = x_tag_w x) /\
  forall t, In t ts -> simple (t_ty t).
Proof.
  intros x ts. cbn [simple]. apply and_iff_compat_l. 
  induction ts as [|f fs IH]; cbn [fold_right In]; [tauto|].
  rewrite IH. split; [intros [H1 H2] g [<-|I]; auto|intro H; split; auto].
Qed.

Lemma all_zip : forall A B C (g : A * Z -> B) (f : B -> option C) (h : A -> C) l is (P : A -> Z -> Prop),
  Forall2 P l is -> (forall a i, In a l -> P a i -> f (g (a, i)) = Some (h a)) ->
  all f (map g (combine l is)) = Some (map h l).
Proof.
  intros A B C g f h l is P F. induction F as [|a i l is H F IH]; intro E; auto.
  cbn [combine map all]. rewrite (E a i) by (cbn; auto).
  change ((fix go l := match l with [] => Some [] | x :: r =>
    match f x, go r with Some y, Some ys => Some (y :: ys) | _, _ => None end end)
    (map g (combine l is))) with (all f (map g (combine l is))).
  rewrite IH; auto. intros; apply E; auto. cbn; auto.
Qed.

Lemma reflect_step : forall t, simple t -> step_ok t.
Proof.
  induction t as [w al sg|w al| |fs size al IH|x ts IH|e len esz al IH|e p IH]
    using ty_ind2; intros PL s s' i G E L; cbn [reflect_ty] in E;
    (destruct (find _ (snd s)) as [e0|] eqn:FD;
     [injection E as <- <-; split; auto;
      apply find_some in FD as [I S]; destruct e0 as [u j]; cbn [fst snd] in *;
      apply same_eq in S; subst u; apply (G _ _ I)|clear FD]).
  - injection E as <- <-. apply new_there; auto. cbn [unreflect_ty]. rewrite at_top. auto.
  - injection E as <- <-. apply new_there; auto. cbn [unreflect_ty]. rewrite at_top.
    cbn [simple] in PL. destruct PL as [-> | ->]; auto.
  - injection E as <- <-. apply new_there; auto. cbn [unreflect_ty]. rewrite at_top. auto.
  - destruct (visit _ s) as [s1 is] eqn:V. rewrite plain_fields in PL.
    injection E as <- <-. cbn [fst push] in L.
    rewrite <- (map_map f_ty (reflect_ty same)) in V.
    destruct (visit_ok (map f_ty fs)) with (s := s) (s' := s1) (is := is) as [G1 T1]; auto.
    { apply Forall_map. rewrite Forall_forall in *. intros f F. apply IH; auto. }
    { rewrite pool_len_app in L. cbn in L. lia. }
    apply new_there; auto. cbn [unreflect_ty]. rewrite at_top.
    erewrite (all_zip _ _ _ _ _ (fun f => mkField (f_name f) (forget (f_ty f)) (f_off f)) fs is
               (fun f i => there (fst s1) i (f_ty f))).
    + reflexivity.
    + clear - T1. remember (map f_ty fs) as l. revert fs Heql.
      induction T1; intros [|f fs] Q; try discriminate; constructor.
      * injection Q as -> _. auto.
      * injection Q as _ Q. auto.
    + cbn [f_ty f_name f_off fst snd]. intros f j F T. erewrite rel_there by eauto. reflexivity.
  - destruct (visit _ s) as [s1 is] eqn:V. rewrite plain_terms in PL. destruct PL as [PO PL].
    rewrite <- (map_map t_ty (reflect_ty same)) in V.
    assert (L1 : forall r, pool_len (fst (push r s1)) < 2 ^ 31 -> pool_len (fst s1) < 2 ^ 31).
    { intros r. cbn [push fst]. rewrite pool_len_app. cbn. lia. }
    assert (FF : Forall step_ok (map t_ty ts)).
    { apply Forall_map. rewrite Forall_forall in *. intros t I. apply IH; auto. }
    assert (Z2 : forall l, Forall2 (fun t i => there l i t) (map t_ty ts) is ->
                           Forall2 (fun t i => there l i (t_ty t)) ts is).
    { clear. intros l T1. remember (map t_ty ts) as k. revert ts Heqk.
      induction T1; intros [|f fs] Q; try discriminate; constructor.
      * injection Q as -> _. auto.
      * injection Q as _ Q. auto. }
    destruct (x_outline x) eqn:O; injection E as <- <-.
    + destruct (visit_ok (map t_ty ts) FF s s1 is G V (L1 _ L)) as [G1 T1].
      apply new_there; auto. cbn [unreflect_ty]. rewrite at_top.
      erewrite (all_zip _ _ _ _ _ (fun t => mkTerm (t_name t) (forget (t_ty t)) (t_tag t) (t_attrs t)) ts is
                 (fun t i => there (fst s1) i (t_ty t))).
      * cbn [forget]. f_equal. f_equal. destruct (PO eq_refl) as [P1 P2].
        destruct x; cbn in *. subst. auto.
      * auto.
      * cbn [t_ty t_name t_tag t_attrs fst snd]. intros t j F T. erewrite rel_there by eauto. reflexivity.
    + destruct (visit_ok (map t_ty ts) FF s s1 is G V (L1 _ L)) as [G1 T1].
      apply new_there; auto. cbn [unreflect_ty]. rewrite at_top.
      erewrite (all_zip _ _ _ _ _ (fun t => mkTerm (t_name t) (forget (t_ty t)) (t_tag t) (t_attrs t)) ts is
                 (fun t i => there (fst s1) i (t_ty t))).
      * cbn [forget]. f_equal. f_equal. destruct x; cbn in *. subst. auto.
      * auto.
      * cbn [t_ty t_name t_tag t_attrs fst snd]. intros t j F T. erewrite rel_there by eauto. reflexivity.
  - destruct (reflect_ty same e s) as [s1 j] eqn:V. injection E as <- <-. cbn [simple] in PL.
    destruct (IH PL _ _ _ G V) as [G1 T1].
    { cbn [push fst] in L. rewrite pool_len_app in L. cbn in L. lia. }
    apply new_there; auto. cbn [unreflect_ty]. rewrite at_top. erewrite rel_there by eauto. reflexivity.
  - destruct (reflect_ty same e s) as [s1 j] eqn:V. injection E as <- <-. cbn [simple] in PL.
    destruct (IH PL _ _ _ G V) as [G1 T1].
    { cbn [push fst] in L. rewrite pool_len_app in L. cbn in L. lia. }
    apply new_there; auto. cbn [unreflect_ty]. rewrite at_top. erewrite rel_there by eauto. reflexivity.
Qed.

Lemma unreflect_reflect : forall pr, simple (p_head pr) ->
  pool_len (rp_types (reflect same pr)) < 2 ^ 31 ->
  unreflect (reflect same pr) = Some (mkProto (forget (p_head pr)) (p_bufoff pr)).
Proof.
  intros pr PL L. unfold reflect in *.
  destruct (reflect_ty same (p_head pr) ([], [])) as [s i] eqn:E.
  cbn [rp_types] in L.
  destruct (reflect_step _ PL ([], []) s i) as [_ [B U]]; auto.
  { intros t j []. }
  unfold unreflect. cbn [rp_types rp_head rp_bufoff].
  rewrite <- (app_nil_r (fst s)) at 2.
  erewrite unreflect_grow; [reflexivity|exact U|]. unfold pool_len in *. lia.
Qed.
End REFL.

(** ** The lost hint is not read by generated code *)
Definition ff (f : field ty) : field ty := mkField (f_name f) (forget (f_ty f)) (f_off f).
Definition ft (t : term ty) : term ty :=
  mkTerm (t_name t) (forget (t_ty t)) (t_tag t) (t_attrs t).
Definition fv (p : vecinfo) : vecinfo :=
  mkVec (v_min p) (v_max p) 0 (v_ppl p) (v_len_off p) (v_len_sz p) (v_ref_off p) (v_ref_sz p)
        (v_mode p) (v_inl_off p) (v_part_off p) (v_ew p) (v_size p) (v_align p).

Lemma forget_hsize : forall t, hsize (forget t) = hsize t.
Proof. destruct t; reflexivity. Qed.
Lemma forget_has_max : forall t, has_max (forget t) = has_max t.
Proof.
  induction t as [w al sg|w al| |fs size al IH|x ts IH|e len esz al IH|e p IH]
    using ty_ind2; cbn [forget has_max v_max]; auto.
  - induction IH as [|f fs H F IH]; cbn [map forallb f_ty]; auto. rewrite H, IH. auto.
  - rewrite IH. auto.
Qed.

Lemma find_map : forall A B (g : A -> B) (P : B -> bool) l,
  find P (map g l) = option_map g (find (fun x => P (g x)) l).
Proof. induction l as [|a l IH]; cbn [map find]; auto. destruct (P (g a)); auto. Qed.
Lemma find_ext : forall A (P Q : A -> bool) l, (forall x, P x = Q x) -> find P l = find Q l.
Proof. induction l as [|a l IH]; intro E; cbn [find]; auto. rewrite E, IH; auto. Qed.

Lemma last_field_ff : forall n fs, last_field n (map ff fs) = option_map ff (last_field n fs).
Proof. intros. unfold last_field, find_field. rewrite <- map_rev, find_map. auto. Qed.
Lemma find_field_ff : forall n fs, find_field n (map ff fs) = option_map ff (find_field n fs).
Proof. intros. unfold find_field. rewrite find_map. auto. Qed.
Lemma find_term_ft : forall n ts, find_term n (map ft ts) = option_map ft (find_term n ts).
Proof. intros. unfold find_term. rewrite find_map. auto. Qed.
Lemma last_term_ft : forall n ts, last_term n (map ft ts) = option_map ft (last_term n ts).
Proof. intros. unfold last_term. rewrite <- map_rev, find_term_ft. auto. Qed.

Lemma is_enum_ft : forall x ts, is_enum x (map ft ts) = is_enum x ts.
Proof.
  intros. unfold is_enum. f_equal. induction ts as [|t ts IH]; cbn [map forallb]; auto.
  rewrite IH. unfold is_unit. cbn [ft t_ty]. rewrite forget_hsize. auto.
Qed.
Lemma pos_exact_ft : forall ts ts', pos_exact (map ft ts) ts' = pos_exact ts ts'.
Proof. induction ts as [|t ts IH]; intros [|t' ts']; cbn [map pos_exact]; auto. rewrite IH. auto. Qed.
Lemma max_tag_ft : forall ts, max_tag (map ft ts) = max_tag ts.
Proof. induction ts as [|t ts IH]; auto. unfold max_tag in *. cbn [map fold_right]. rewrite IH. auto. Qed.
Lemma use_copytag_ft : forall x ts x' ts',
  use_copytag x (map ft ts) x' ts' = use_copytag x ts x' ts'.
Proof.
  intros. unfold use_copytag. rewrite is_enum_ft, pos_exact_ft, max_tag_ft, map_length. auto.
Qed.
Lemma copytag_ft : forall x ts x' ts' g, copytag x (map ft ts) x' ts' g = copytag x ts x' ts' g.
Proof.
  intros. unfold copytag.
  assert (C : copy_exact (map ft ts) ts' = copy_exact ts ts').
  { unfold copy_exact. induction ts as [|t ts IH]; cbn [map forallb]; auto. rewrite IH. auto. }
  assert (M : tag_mapping (map ft ts) ts' = tag_mapping ts ts').
  { unfold tag_mapping. rewrite map_map. auto. }
  rewrite C, M. auto.
Qed.

Lemma insert_by_map : forall A B (g : A -> B) (key : B -> Z) x l,
  insert_by key (g x) (map g l) = map g (insert_by (fun y => key (g y)) x l).
Proof.
  induction l as [|y l IH]; cbn [map insert_by]; auto. destruct (key (g x) <=? key (g y)); auto.
  cbn [map]. rewrite IH. auto.
Qed.
Lemma sort_by_map : forall A B (g : A -> B) (key : B -> Z) l,
  sort_by key (map g l) = map g (sort_by (fun y => key (g y)) l).
Proof.
  induction l as [|y l IH]; auto. unfold sort_by in *. cbn [map fold_right].
  rewrite IH, insert_by_map. auto.
Qed.
Lemma combine_map_r : forall A B C (g : B -> C) (a : list A) b,
  combine a (map g b) = map (fun cb => (fst cb, g (snd cb))) (combine a b).
Proof. induction a as [|x a IH]; intros [|y b]; cbn [map combine]; auto. rewrite IH. auto. Qed.
Lemma dispatch_ft : forall ts g, dispatch t_tag (map ft ts) g = option_map ft (dispatch t_tag ts g).
Proof.
  intros. unfold dispatch. rewrite !sort_by_map, map_map, combine_map_r, find_map.
  change (map (fun x => t_tag (ft x))) with (map (@t_tag ty)).
  change (sort_by (fun y => t_tag (ft y)) ts) with (sort_by (@t_tag ty) ts).
  change (sort_by (fun y => sgn64 (t_tag (ft y))) ts) with (sort_by (fun y : term ty => sgn64 (t_tag y)) ts).
  cbn [fst]. destruct (find _ _) as [[a t]|]; auto.
Qed.

Lemma length_op_fv : forall k e p a m, length_op k (forget e) (fv p) a m = length_op k e p a m.
Proof.
  intros. unfold length_op. cbn [has_max fv v_max v_len_off v_len_sz]. rewrite forget_has_max. auto.
Qed.
Lemma proj_path_forget : forall p t a,
  proj_path (forget t) p a = option_map (fun ta => (forget (fst ta), snd ta)) (proj_path t p a).
Proof.
  induction p as [|n p IH]; intros t a; cbn [proj_path]; auto. destruct p as [|n' p]; auto.
  destruct t; auto. cbn [forget].
  change (map _ fs) with (map ff fs). rewrite find_field_ff.
  destruct (find_field n fs) as [f|]; cbn [option_map]; auto. cbn [ff f_ty f_off]. apply IH.
Qed.
Lemma attr_cond_forget : forall k t a m x, attr_cond k (forget t) a m x = attr_cond k t a m x.
Proof.
  intros. unfold attr_cond. destruct x; auto. rewrite proj_path_forget.
  destruct (proj_path t path a) as [[u b]|]; cbn [option_map fst snd]; auto.
  destruct u; auto. cbn [forget]. change (mkVec _ _ 0 _ _ _ _ _ _ _ _ _ _ _) with (fv p).
  rewrite length_op_fv. auto.
Qed.
Lemma term_cond_forget : forall k t a m l, term_cond k (forget t) a m l = term_cond k t a m l.
Proof. induction l as [|x l IH]; cbn [term_cond]; auto. rewrite attr_cond_forget, IH. auto. Qed.

Definition blind (run : runner) : Prop :=
  forall src p hs a d s, run (forget src) p hs a d s = run src p hs a d s.

Lemma terms_run_blind : forall k x l, Forall (fun tr => blind (snd tr)) l ->
  forall sty a d s, terms_run k x (forget sty) l a d s = terms_run k x sty l a d s.
Proof.
  induction 1 as [|[t run] l H F IH]; intros sty a d s; cbn [terms_run]; auto.
  rewrite term_cond_forget. destruct (term_cond k sty a (s_mem s) (t_attrs t)) as [[]| |]; auto.
  cbn [snd] in H. destruct (x_outline x); auto.
  destruct (allocate _ _ _); cbn [bind]; auto.
Qed.
Lemma term_run_blind : forall k x l, Forall (fun tr => blind (snd tr)) l ->
  forall sty hs a d s, term_run k x (forget sty) l hs a d s = term_run k x sty l hs a d s.
Proof. intros. unfold term_run. rewrite terms_run_blind; auto. Qed.

Lemma targets_forall : forall R (P : term ty * R -> Prop) n x l, Forall P l -> Forall P (targets n x l).
Proof.
  intros R P n x l F. unfold targets. destruct (filter _ l) as [|y r] eqn:E.
  - destruct (nth_error l (x_default x)) eqn:N; auto. constructor; auto.
    rewrite Forall_forall in F. apply F. eapply nth_error_In; eauto.
  - rewrite <- E. rewrite Forall_forall in *. intros z I. apply filter_In in I as [I _]. auto.
Qed.

Lemma loop_ext : forall n i f g s, (forall j s, f j s = g j s) -> loop n i f s = loop n i g s.
Proof.
  induction n as [|n IH]; intros i f g s E; cbn [loop]; auto. rewrite E.
  destruct (g i s); cbn [bind]; auto.
Qed.
Lemma for_loop_ext : forall c f g s, (forall j s, f j s = g j s) -> for_loop c f s = for_loop c g s.
Proof. intros. unfold for_loop. apply loop_ext; auto. Qed.
Lemma bind_ext : forall r r' f g, r = r' -> (forall s, f s = g s) -> bind r f = bind r' g.
Proof. intros r r' f g -> E. destruct r'; cbn [bind]; auto. Qed.

Lemma copy_loop_blind : forall k e q r ss db ds dew c run a s, blind run ->
  copy_loop k (forget e) (fv q) r ss db ds dew c run a s = copy_loop k e q r ss db ds dew c run a s.
Proof.
  intros. unfold copy_loop. apply for_loop_ext. intros j s1.
  change (region_start k (fv q) r a (s_mem s1)) with (region_start k q r a (s_mem s1)).
  change (v_ew (fv q)) with (v_ew q). destruct (region_start k q r a (s_mem s1)); auto.
Qed.

Lemma vec_run_blind : forall k de p run e q a d s, blind run ->
  vec_run k de p run (forget e) (fv q) a d s = vec_run k de p run e q a d s.
Proof.
  intros k de p run e q a d s B. unfold vec_run. rewrite length_op_fv.
  destruct (length_op k e q a (s_mem s)) as [n0|]; auto.
  change (v_min (fv q)) with (v_min q).
  destruct (negb (v_min q =? 0) && (n0 <=? v_min q)).
  - unfold inline_vec_run. change (v_min (fv q)) with (v_min q).
    destruct (v_min q <? _); auto. destruct (dst_inline p _).
    + apply copy_loop_blind; auto.
    + apply bind_ext; auto. intro s1. apply bind_ext; auto. intro s2.
      apply bind_ext; [|intro s3]; apply copy_loop_blind; auto.
  - unfold outline_vec_run. change (v_min (fv q)) with (v_min q).
    change (v_ppl (fv q)) with (v_ppl q).
    destruct ((0 <? v_min q) && _); auto. destruct (dst_inline p _).
    + apply bind_ext; [|intro s3]; apply copy_loop_blind; auto.
    + apply bind_ext; auto. intro s1. destruct (v_ppl q <=? v_ppl p).
      * apply bind_ext; auto. intro s2. apply bind_ext; [apply copy_loop_blind; auto|intro s3].
        apply bind_ext; [|intro s4]; apply copy_loop_blind; auto.
      * apply bind_ext; auto. intro s2. apply bind_ext; [apply copy_loop_blind; auto|intro s3].
        apply bind_ext; [|intro s4]; apply copy_loop_blind; auto.
Qed.

Lemma fields_run_blind : forall sfs l, Forall (fun fr => blind (snd fr)) l ->
  forall p hs a d s, fields_run (map ff sfs) l p hs a d s = fields_run sfs l p hs a d s.
Proof.
  induction 1 as [|[f run] l H F IH]; intros p hs a d s; cbn [fields_run]; auto.
  apply bind_ext; auto. unfold field_run. rewrite last_field_ff.
  destruct (last_field (f_name f) sfs) as [sf|]; cbn [option_map]; auto.
  cbn [ff f_ty f_off]. apply H.
Qed.

Lemma outline_first_forall : forall A (P : A -> Prop) t l, Forall P l -> Forall P (outline_first t l).
Proof.
  intros A P t l F. unfold outline_first. destruct (rev (filter t l)) as [|o r] eqn:E; auto.
  rewrite Forall_forall in *. intros x [<-|I].
  - apply F. assert (I : In o (rev (filter t l))) by (rewrite E; cbn; auto).
    apply in_rev in I. apply filter_In in I as [I _]. auto.
  - apply filter_In in I as [I _]. auto.
Qed.

Lemma xc_blind : forall fconv dst k, blind (xc fconv dst k).
Proof.
  intros fconv dst k.
  induction dst as [w al sg|w al| |fs size al IH|x ts IH|e len esz al IH|e p IH]
    using ty_ind2; intros src q hs a d s; cbn [xc].
  - destruct src; auto.
  - destruct src; auto.
  - auto.
  - destruct src as [| | |sfs ssz sal| | |]; auto. cbn [forget]. change (map _ sfs) with (map ff sfs).
    unfold struct_run. apply fields_run_blind. apply outline_first_forall.
    apply Forall_map. auto.
  - destruct src as [| | | |sx sts| |]; auto. cbn [forget]. change (map _ sts) with (map ft sts).
    rewrite use_copytag_ft. destruct (use_copytag sx sts x ts).
    + destruct (is_dummy k); auto. destruct (load _ _ _); auto. rewrite copytag_ft. auto.
    + assert (FB : Forall (fun tr : term ty * runner => blind (snd tr))
                          (map (fun t => (t, xc fconv (t_ty t) k)) ts)) by (apply Forall_map; auto).
      unfold variant_run. destruct (handlers_ok hs); cbn [negb]; auto. destruct q as [|n q].
      * destruct (load _ _ _) as [g|]; auto. rewrite dispatch_ft.
        destruct (dispatch t_tag sts g) as [t|]; cbn [option_map]; auto.
        cbn [ft t_ty t_name]. apply term_run_blind. apply targets_forall; auto.
      * rewrite find_term_ft. destruct (find_term n sts) as [t|]; cbn [option_map]; auto.
        cbn [ft t_ty]. apply term_run_blind. apply targets_forall; auto.
  - destruct src as [| | | | |se slen sesz sal|]; auto. cbn [forget]. apply bind_ext; auto.
    apply for_loop_ext. intros j s1. apply IH.
  - destruct src as [| | | | | |se r]; auto. cbn [forget].
    change (mkVec _ _ 0 _ _ _ _ _ _ _ _ _ _ _) with (fv r). apply vec_run_blind. auto.
Qed.

Lemma proj_ty_forget : forall p t, proj_ty (forget t) p = option_map forget (proj_ty t p).
Proof.
  induction p as [|n p IH]; intros t; cbn [proj_ty]; auto. destruct p as [|n' p]; auto.
  destruct t; auto. cbn [forget].
  change (map _ fs) with (map ff fs). rewrite find_field_ff.
  destruct (find_field n fs) as [f|]; cbn [option_map]; auto. cbn [ff f_ty]. apply IH.
Qed.
Definition gblind (g : generator) : Prop := forall src p hs, g (forget src) p hs = g src p hs.
Lemma term_gen_blind : forall l, Forall (fun tg => gblind (snd tg)) l -> forall sty hs,
  term_gen (forget sty) l hs = term_gen sty l hs.
Proof.
  intros l F sty hs. unfold term_gen. f_equal.
  induction F as [|[t g] l H F IH]; cbn [forallb fst snd]; auto. rewrite IH. f_equal. f_equal.
  - induction (t_attrs t) as [|x r IHr]; cbn [forallb]; auto. rewrite IHr. f_equal.
    destruct x; auto. cbn [attr_gen]. rewrite proj_ty_forget.
    destruct (proj_ty sty path) as [[]|]; auto.
  - apply H.
Qed.
Lemma gen_blind : forall dst, gblind (gen dst).
Proof.
  induction dst as [w al sg|w al| |fs size al IH|x ts IH|e len esz al IH|e p IH]
    using ty_ind2; intros src q hs; cbn [gen].
  - destruct src; auto.
  - destruct src; auto.
  - auto.
  - destruct src as [| | |sfs ssz sal| | |]; auto. cbn [forget]. change (map _ sfs) with (map ff sfs).
    induction IH as [|f fs H F IH]; cbn [forallb]; auto. rewrite IH. f_equal.
    rewrite last_field_ff. destruct (last_field (f_name f) sfs) as [sf|]; cbn [option_map]; auto.
    apply H.
  - destruct src as [| | | |sx sts| |]; auto. cbn [forget]. change (map _ sts) with (map ft sts).
    rewrite use_copytag_ft. destruct (use_copytag sx sts x ts); auto. f_equal.
    assert (FB : Forall (fun tr : term ty * generator => gblind (snd tr))
                        (map (fun t => (t, gen (t_ty t))) ts)) by (apply Forall_map; auto).
    destruct q as [|n q].
    + f_equal. induction sts as [|t sts IHs]; cbn [map forallb]; auto. rewrite IHs. f_equal.
      cbn [ft t_ty t_name]. apply term_gen_blind. apply targets_forall; auto.
    + rewrite find_term_ft. destruct (find_term n sts) as [t|]; cbn [option_map]; auto.
      apply term_gen_blind. apply targets_forall; auto.
  - destruct src as [| | | | |se slen sesz sal|]; auto. cbn [forget]. rewrite IH. auto.
  - destruct src as [| | | | | |se r]; auto. apply IH.
Qed.

Lemma decode_blind : forall fconv t o host hs msg obj dbuf dsize m,
  decode fconv (mkProto (forget t) o) host hs msg obj dbuf dsize m =
  decode fconv (mkProto t o) host hs msg obj dbuf dsize m.
Proof.
  intros. unfold decode. cbn [p_head]. rewrite gen_blind, xc_blind. auto.
Qed.

(** ** Planned protocols are simple *)
Lemma forall_in : forall A (P : A -> Prop) l,
  fold_right (fun f Q => P f /\ Q) True l <-> forall x, In x l -> P x.
Proof.
  induction l as [|a l IH]; cbn [fold_right In]; [tauto|]. rewrite IH. split.
  - intros [H1 H2] x [<-|I]; auto.
  - intro H. split; auto.
Qed.

(** The head of an outlined variant is its tag, whatever the widths of floats. *)
Fixpoint tagged (t : ty) : Prop :=
  match t with
  | TStruct fs _ _ => fold_right (fun f P => tagged (f_ty f) /\ P) True fs
  | TVar x ts => (x_outline x = true -> x_tag_off x = 0 /\ x_size x = x_tag_w x) /\
                 fold_right (fun t P => tagged (t_ty t) /\ P) True ts
  | TArr e _ _ _ => tagged e
  | TVec e _ => tagged e
  | _ => True
  end.

Lemma tagged_simple : forall t, wf t = true -> tagged t -> simple t.
Proof.
  induction t as [w al sg|w al| |fs size al IH|x ts IH|e len esz al IH|e p IH]
    using ty_ind2; intros W T; cbn [simple tagged wf] in *; auto.
  - apply orb_true_iff in W as [W|W]; apply Z.eqb_eq in W; auto.
  - rewrite (forall_in _ (fun f => tagged (f_ty f))) in T.
    rewrite (forall_in _ (fun f => simple (f_ty f))). rewrite Forall_forall in IH.
    apply andb_true_iff in W as [_ W]. rewrite forallb_forall in W. auto.
  - destruct T as [T1 T2]. split; auto. rewrite (forall_in _ (fun f => tagged (t_ty f))) in T2.
    rewrite (forall_in _ (fun f => simple (t_ty f))). rewrite Forall_forall in IH.
    apply andb_true_iff in W as [_ W]. rewrite forallb_forall in W. auto.
  - apply andb_true_iff in W as [_ W]. auto.
  - apply andb_true_iff in W as [_ W]. auto.
Qed.

Lemma tagged_layout : forall t, tagged (layout t).
Proof.
  induction t as [w al sg|w al| |fs size al IH|x ts IH|e len esz al IH|e p IH]
    using ty_ind2; try exact I; cbn [layout]; auto.
  - destruct (lay_fields 0 _) as [fs' e] eqn:L. cbn [tagged].
    rewrite (forall_in _ (fun f => tagged (f_ty f))).
    intros f F. destruct (lay_fields_in _ _ _ _ _ L F) as (n & N).
    apply in_map_iff in N as (g & E & G). injection E as _ <-.
    rewrite Forall_forall in IH. auto.
  - unfold lay_var. destruct (intern _ _) as [ts' d] eqn:N. cbn [tagged]. split.
    + destruct (x_outline x); cbn [x_outline x_tag_off x_size x_tag_w]; auto. discriminate.
    + rewrite (forall_in _ (fun f => tagged (t_ty f))). intros t I.
      pose proof (intern_perm (map (fun t => mkTerm (t_name t) (layout (t_ty t)) (t_tag t)
                                      (t_attrs t)) ts) (x_default x)) as P.
      rewrite N in P. cbn [fst] in P. apply (Permutation_in _ P) in I.
      apply in_map_iff in I as (g & <- & G). cbn [t_ty]. rewrite Forall_forall in IH. auto.
Qed.

Lemma tagged_term_off : forall t o, tagged t -> tagged (set_term_off o t).
Proof.
  induction t as [w al sg|w al| |fs size al IH|x ts IH|e len esz al IH|e p IH]
    using ty_ind2; intros o T; cbn [set_term_off]; auto.
  - cbn [tagged] in *. rewrite (forall_in _ (fun f => tagged (f_ty f))) in *. intros f F.
    apply in_map_iff in F as (g & <- & G). cbn [f_ty]. rewrite Forall_forall in IH. auto.
  - destruct (x_outline x) eqn:E; auto. cbn [tagged x_outline x_tag_off x_size x_tag_w] in *.
    destruct T as [T1 T2]. split; auto.
Qed.

Lemma planned_simple : forall s tp pr, schema s = true -> planned s tp pr -> simple (p_head pr).
Proof.
  intros s tp pr S (sel & ->). pose proof (plan_where_facts sel s tp S) as F.
  apply tagged_simple; [apply proto_ok_inv; apply pl_ok with s; auto|].
  unfold plan_where, gen_offsets.
  destruct (has_outline _); cbn [p_head]; [apply tagged_term_off|]; apply tagged_layout.
Qed.

(** No vector of the type has an inline length hint. *)
Fixpoint unhinted (t : ty) : Prop :=
  match t with
  | TStruct fs _ _ => fold_right (fun f P => unhinted (f_ty f) /\ P) True fs
  | TVar x ts => fold_right (fun t P => unhinted (t_ty t) /\ P) True ts
  | TArr e _ _ _ => unhinted e
  | TVec e p => v_wmin p = 0 /\ unhinted e
  | _ => True
  end.

Lemma map_same : forall A (f : A -> A) l, (forall x, In x l -> f x = x) -> map f l = l.
Proof.
  induction l as [|a l IH]; intro E; cbn [map]; auto.
  rewrite E by (left; auto). rewrite IH; auto. intros x I. apply E. right. auto.
Qed.

Lemma forget_unhinted : forall t, unhinted t -> forget t = t.
Proof.
  induction t as [w al sg|w al| |fs size al IH|x ts IH|e len esz al IH|e p IH]
    using ty_ind2; intro U; cbn [forget unhinted] in *; auto.
  - rewrite (forall_in _ (fun f => unhinted (f_ty f))) in U. rewrite Forall_forall in IH.
    rewrite map_same; auto. intros f F. rewrite IH; auto. destruct f; auto.
  - rewrite (forall_in _ (fun f => unhinted (t_ty f))) in U. rewrite Forall_forall in IH.
    rewrite map_same; auto. intros f F. rewrite IH; auto. destruct f; auto.
  - rewrite IH; auto.
  - destruct U as [E U]. rewrite IH; auto. destruct p. cbn in *. subst. auto.
Qed.

(** ** C24 *)
Theorem C24_round_trip_proof : forall same s tp pr,
  (forall a b, same a b = true -> a = b) -> schema s = true -> planned s tp pr ->
  pool_len (rp_types (reflect same pr)) < 2 ^ 31 -> unhinted (p_head pr) ->
  unreflect (reflect same pr) = Some pr.
Proof.
  intros same s tp pr E S P L U.
  rewrite (unreflect_reflect same E pr (planned_simple _ _ _ S P) L), (forget_unhinted _ U).
  destruct pr; auto.
Qed.

Theorem C24_same_decoder_proof : forall same s tp pr,
  (forall a b, same a b = true -> a = b) -> schema s = true -> planned s tp pr ->
  pool_len (rp_types (reflect same pr)) < 2 ^ 31 ->
  exists pr', unreflect (reflect same pr) = Some pr' /\
    forall fconv host hs msg obj dbuf dsize m,
      decode fconv pr' host hs msg obj dbuf dsize m = decode fconv pr host hs msg obj dbuf dsize m.
Proof.
  intros same s tp pr E S P L. eexists. split.
  - exact (unreflect_reflect same E pr (planned_simple _ _ _ S P) L).
  - intros. rewrite decode_blind. destruct pr; auto.
Qed.

(** Equality of the types without parts, as an instance of the cache's key. *)
Definition same_leaf (a b : ty) : bool :=
  match a, b with
  | TInt w al s, TInt w' al' s' =>
      (w =? w') && (al =? al') &&
      match s, s' with
      | Signed, Signed | Unsigned, Unsigned | Signless, Signless => true
      | _, _ => false
      end
  | TFloat w al, TFloat w' al' => (w =? w') && (al =? al')
  | TUnit, TUnit => true
  | _, _ => false
  end.
Lemma same_leaf_eq : forall a b, same_leaf a b = true -> a = b.
Proof.
  intros [] []; cbn [same_leaf]; try discriminate; auto; intro H;
    repeat (apply andb_true_iff in H as [H ?]);
    repeat match goal with E : (_ =? _) = true |- _ => apply Z.eqb_eq in E end; subst; auto.
  destruct s, s0; try discriminate; auto.
Qed.

Example C24_case : exists pr, planned demo ["body"; "_"]%string pr /\ schema demo = true /\
  pool_len (rp_types (reflect same_leaf pr)) < 2 ^ 31 /\
  (List.length (rp_types (reflect same_leaf pr)) < List.length (rp_types (reflect (fun _ _ => false) pr)))%nat.
Proof.
  exists (plan demo ["body"; "_"]%string). split; [apply plan_planned; vm_compute; auto|].
  split; [vm_compute; auto|]. split; [vm_compute; auto|].
  apply Nat.ltb_lt. vm_compute. reflexivity.
Qed.
Example C24_unhinted_case : unhinted (p_head (plan (struct [("a"%string, u8); ("b"%string, span u16 (-1) 0)]) [])).
Proof. vm_compute. auto 10. Qed.

(** A hinted vector: the same types in the end, but not the same protocol type. *)
Definition hinted : ty := struct [("v"%string, span u8 (-1) 4)].
Theorem C24_refuted_proof : exists s tp pr,
  schema s = true /\ planned s tp pr /\ forall same,
  (forall a b, same a b = true -> a = b) ->
  unreflect (reflect same pr) <> Some pr.
Proof.
  exists hinted, [], (plan hinted []). split; [vm_compute; auto|].
  split; [apply plan_planned; vm_compute; auto|].
  intros same E H.
  vm_compute in H. discriminate H.
Qed.
