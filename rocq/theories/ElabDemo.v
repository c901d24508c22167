(** Examples for C50 and C51, and files that are not treated as a reader would expect. *)
From Coq Require Import Ascii String List Bool ZArith Lia.
From Verif Require Import Base Types Transcode Spec Api Plan Cpp Schema Claims Grammar GrammarSpec Parse Imports
  Elab ElabSpec ElabFacts ElabClaims PortalFacts.
Import ListNotations.
Local Open Scope string_scope.
Local Open Scope Z_scope.

Definition nl : string := String (ascii_of_nat 10) "".
Definition lines (l : list string) : text := chars (String.concat nl l ++ nl)%string.

(** ** Two files *)
Definition base_pj : text := lines
  ["space geo {";
   "  struct Point { x : int32; y : int32; }";
   "  enum Color { red = 3; green default; }";
   "}"].
Definition main_pj : text := lines
  ["import base;";
   "space app {";
   "  struct Line { points : geo.Point[2:100]; // at least two";
   "                color : geo.Color; }";
   "  variant Body { line : Line = 'l'; none; text : char8[:]; }";
   "  struct Message { id : uint64; body : Body; }";
   "  specification Proto : Message @ body._;";
   "  portal Client : Proto {";
   "    sizer size round_up : Message;";
   "    encoder encode : Message @ body.line;";
   "    decoder decode : Message { handlers [body.line, body.text]; };";
   "  }";
   "}"].
Definition two : sources := [("d/base.pj", base_pj); ("main.pj", main_pj)].

Definition point : ty := TStruct [mkField "x" (TInt 4 4 Signed) 0; mkField "y" (TInt 4 4 Signed) 0] 0 0.
Definition pure_variant (d : nat) (ts : list (string * ty * Z)) : ty :=
  TVar (mkVar false d 0 0 0 0 0) (map (fun t => mkTerm (fst (fst t)) (snd (fst t)) (snd t) []) ts).
Definition hue : ty := pure_variant 1 [("red", TUnit, 3); ("green", TUnit, 4)].
Definition line_ty : ty :=
  TStruct [mkField "points" (TVec point (bare_vec 2 100)) 0; mkField "color" hue 0] 0 0.
Definition body_ty : ty :=
  pure_variant 0 [("undef", TUnit, 0); ("line", line_ty, 108); ("none", TUnit, 109);
                  ("text", TVec (TInt 1 1 Signless) (bare_vec 0 (-1)), 110)].
Definition message_ty : ty := TStruct [mkField "id" (TInt 8 8 Unsigned) 0; mkField "body" body_ty 0] 0 0.
Definition two_world : world := mkWorld
  [(["app"; "Message"], message_ty); (["app"; "Body"], body_ty); (["app"; "Line"], line_ty);
   (["geo"; "Color"], hue); (["geo"; "Point"], point)]
  [(["app"; "Proto"], (message_ty, ["body"; "_"]))]
  [(["app"; "Client"],
    mkPortal ["app"; "Proto"]
      [PSizer "size" ["app"; "Message"] [] true;
       PEncoder "encode" ["app"; "Message"] ["body"; "line"];
       PDecoder "decode" ["app"; "Message"] [["body"; "line"]; ["body"; "text"]]])].
Example two_read : front false two ["d"] "main.pj" = Good (two_world, mkLocal [["app"; "Client"]] []).
Proof. vm_compute. reflexivity. Qed.
(** The hypotheses of [C50_round_trip]. *)
Example two_usable : usable message_ty = true /\ cpp_ok message_ty = true /\ strides_ok message_ty = true /\
  exists pr, planned (build message_ty) ["body"; "_"] pr.
Proof.
  split; [vm_compute; reflexivity|]. split; [vm_compute; reflexivity|].
  split; [vm_compute; reflexivity|]. eexists. exists (fun _ => true). reflexivity.
Qed.
Example two_spec : In (["app"; "Proto"], (message_ty, ["body"; "_"])) (w_specs two_world).
Proof. cbn. auto. Qed.
(** The hypothesis of [C50_layout]: the same declarations in one line. *)
Definition squeezed : text := chars "space geo{struct Point{x:int32;y:int32;}enum Color{red=3;green default;}}".
Definition base_decls : list decl :=
  [DSpace (chars "geo")
     [DStruct (chars "Point") false
        [(chars "x", mkT (BInt (chars "32")) []); (chars "y", mkT (BInt (chars "32")) [])];
      DEnum (chars "Color") false
        [mkVF (chars "red") None (Some (TagNum (chars "3"))) false;
         mkVF (chars "green") None None true]]].
Example squeezed_read : parse_text base_pj = Some base_decls /\ parse_text squeezed = Some base_decls.
Proof. vm_compute. auto. Qed.

(** ** C50: what the parser lets through *)
(** A number from 2^63 on is never stored: an uninitialised variable is used. *)
Definition wide : sources := [("a.pj", chars "struct A { x : uint9223372036854775808; }")].
Lemma C50_number_refuted_proof : exists f root, front false f [] root = Undefined.
Proof. exists wide, "a.pj". vm_compute. reflexivity. Qed.

(** Declarations that are accepted although objects of the types cannot be transported. *)
Definition accepted (s : string) (t : ty) : Prop :=
  exists w loc n, front false [("a.pj", chars s)] [] "a.pj" = Good (w, loc) /\ In (n, t) (w_types w).
Ltac accept := eexists; eexists; eexists; split; [vm_compute; reflexivity|cbn; left; reflexivity].
Example big_tag : exists t, accepted "enum E { a = 9223372036854775808; }" t /\ fits t = false.
Proof. eexists. split; [accept|]. vm_compute. reflexivity. Qed.
Example only_undef : exists t, accepted "enum E { }" t /\ fits t = false.
Proof. eexists. split; [accept|]. vm_compute. reflexivity. Qed.
Example zero_bound : exists t, accepted "struct S { x : int8[:0]; }" t /\ fits t = false.
Proof. eexists. split; [accept|]. vm_compute. reflexivity. Qed.
Example empty_items : exists t, accepted "struct E { } struct S { x : E[:]; }" t /\ fits t = false.
Proof. eexists. split; [accept|]. vm_compute. reflexivity. Qed.
Lemma C50_transport_refuted_proof : exists f root w loc n t tp,
  front false f [] root = Good (w, loc) /\ In (n, (t, tp)) (w_specs w) /\
  cpp_ok t = true /\ strides_ok t = true /\ schema t = false.
Proof.
  exists [("a.pj", chars "struct E { } struct S { x : E[:]; } specification P : S;")], "a.pj".
  eexists. eexists. eexists. eexists. eexists. split; [vm_compute; reflexivity|].
  split; [cbn; left; reflexivity|]. vm_compute. auto.
Qed.

(** ** C51: portals of the same name in two files *)
Definition first_pj : text := lines
  ["struct A { x : int8; }"; "specification P : A;";
   "portal Q : P { encoder e : A; }"].
Definition second_pj : text := lines
  ["import first;"; "struct B { y : int8; }"; "specification R : B;";
   "portal Q : R { decoder d : B; }"].
Definition clash : sources := [("d/first.pj", first_pj); ("second.pj", second_pj)].
Lemma C51_merged_refuted_proof : exists f flags root w loc po sp k proto fs,
  front false f flags root = Good (w, loc) /\ in_file f root sp (DPortal k proto fs) /\
  In ((sp ++ [str k])%list, po) (w_portals w) /\
  ~ Forall2 (is_fn (w_types w) sp) fs (po_fns po).
Proof.
  exists clash, ["d"], "second.pj". eexists. eexists. eexists. exists [], (chars "Q"), [chars "R"].
  exists [Decoder (chars "d") [chars "B"] None].
  split; [vm_compute; reflexivity|]. split.
  { eexists. eexists. split; [vm_compute; reflexivity|]. split; [vm_compute; reflexivity|].
    constructor; [|intros; discriminate]. cbn. right. right. right. left. reflexivity. }
  split; [cbn; left; reflexivity|]. cbn [po_fns]. intro F. inversion F as [|? ? ? ? X Y]; subst.
  inversion X.
Qed.
(** The two files by themselves. *)
Example first_alone : exists w loc, front false clash ["d"] "d/first.pj" = Good (w, loc) /\
  w_portals w = [(["Q"], mkPortal ["P"] [PEncoder "e" ["A"] []])].
Proof. eexists. eexists. split; vm_compute; reflexivity. Qed.
(** Together: the protocol of the second with the functions of the first. *)
Example both : exists w loc, front false clash ["d"] "second.pj" = Good (w, loc) /\
  w_portals w = [(["Q"], mkPortal ["R"] [PEncoder "e" ["A"] []])].
Proof. eexists. eexists. split; vm_compute; reflexivity. Qed.

(** ** C51: a specification is refused although its name is new *)
Definition nested (last : string) : text := lines
  ["struct M { x : int8; }";
   "space a {"; "  space a { specification P : M; }"; last; "}"].
Lemma C51_new_name_refuted_proof : exists s s' d w loc,
  parse_text (nested s) <> None /\ parse_text (nested s') <> None /\
  front false [("a.pj", nested s)] [] "a.pj" = Good (w, loc) /\
  front false [("a.pj", nested s')] [] "a.pj" = Rejected /\
  in_file [("a.pj", nested s')] "a.pj" ["a"] d /\
  (exists k h, d = DSpec k h None /\ ~ In ["a"; str k] (map fst (w_specs w)) /\
     exists t, In (strs h, t) (w_types w)).
Proof.
  exists "", "  specification P : M;". eexists. eexists. eexists.
  split; [vm_compute; discriminate|]. split; [vm_compute; discriminate|].
  split; [vm_compute; reflexivity|]. split; [vm_compute; reflexivity|].
  split.
  { eexists. eexists. split; [vm_compute; reflexivity|]. split; [vm_compute; reflexivity|].
    apply (Inside_space _ (chars "a") [DSpace (chars "a") [DSpec (chars "P") [chars "M"] None]; DSpec (chars "P") [chars "M"] None] []); [right; left; reflexivity|]. constructor; [right; left; reflexivity|].
    intros; discriminate. }
  eexists. eexists. split; [reflexivity|]. split.
  - cbn. intros [E|[]]. discriminate.
  - eexists. cbn. left. reflexivity.
Qed.

(** The hypothesis of [C51_single_partial]: [app.Client] is declared once. *)
Lemma inside_named ds sp d : inside ds sp d ->
  (In d ds /\ sp = []) \/ exists n l sp', In (DSpace n l) ds /\ inside l sp' d /\ sp = str n :: sp'.
Proof. induction 1; eauto 8. Qed.
Example client_once : forall p' sp' k' proto' fs', in_file two p' sp' (DPortal k' proto' fs') ->
  p' = "main.pj" /\ proto' = [chars "Proto"] /\
  fs' = [Sizer (chars "size") true [chars "Message"] None;
         Encoder (chars "encode") [chars "Message"] (Some (chars "body.line"));
         Decoder (chars "decode") [chars "Message"] (Some [chars "body.line"; chars "body.text"])].
Proof.
  intros p sp k pr fs (s & ds & S & P & I). unfold two in S. cbn [source] in S.
  destruct (String.eqb_spec "d/base.pj" p) as [<-|N].
  { injection S as <-. vm_compute in P. injection P as <-.
    apply inside_named in I as [[I _]|(n & l & q & I & J & _)].
    - destruct I as [I|[]]; discriminate.
    - destruct I as [I|[]]; injection I as <- <-.
      apply inside_named in J as [[I _]|(n & l & q' & I & J & _)];
        repeat destruct I as [I|I]; try discriminate; destruct I. }
  destruct (String.eqb_spec "main.pj" p) as [<-|N']; [|discriminate].
  injection S as <-. vm_compute in P. injection P as <-.
  apply inside_named in I as [[I _]|(n & l & q & I & J & _)].
  - repeat destruct I as [I|I]; try discriminate; destruct I.
  - repeat destruct I as [I|I]; try discriminate; try contradiction. injection I as <- <-.
    apply inside_named in J as [[I _]|(n & l & q' & I & J & _)];
      repeat destruct I as [I|I]; try discriminate; try contradiction.
    injection I as <- <- <-. auto.
Qed.
