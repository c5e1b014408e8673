(** Declarations: theorems for property C53. *)
From Coq Require Import String Ascii List Bool PeanoNat ZArith.
From Verif Require Import TypeModel TypeSpec TypeGraph CheckModel CheckSpec CheckSafe CheckSound PropCheck DeclModel DeclSpec DeclProofs DeclNames DeclAccept.
Import ListNotations.
Local Open Scope string_scope.
Local Open Scope nat_scope.
Local Open Scope list_scope.

(* --------------------------------------------------------------------------------- C53 *)

(** Every declaration of an accepted program stands for what is written.  Missing: enums with
    a type parameter of their own name, see below. *)
Theorem C53_declarations_stand_partial : forall ds P, declare_all ds = Accepted P -> all_names_ok ds -> unshadowed ds ->
  Forall (stands P) ds.
Proof. exact declarations_stand. Qed.
Print Assumptions C53_declarations_stand_partial.

(** Nothing is declared twice in an accepted program. *)
Theorem C53_nothing_is_declared_twice : forall ds P, declare_all ds = Accepted P -> no_repeats ds.
Proof. exact declared_once. Qed.
Print Assumptions C53_nothing_is_declared_twice.

(** A program that is refused has an error. *)
Theorem C53_refusals_have_errors : forall ds l, declare_all ds = Errors l -> l <> [].
Proof. exact refused_why. Qed.
Print Assumptions C53_refusals_have_errors.

(** The declarations are what the type checker needs (C51).  Missing: generic types without
    arguments in fields and members. *)
Theorem C53_declarations_suffice_partial : forall ds P, declare_all ds = Accepted P -> all_names_ok ds -> unshadowed ds ->
  all_complete ds -> declared_ok P.
Proof. exact declared_well. Qed.
Print Assumptions C53_declarations_suffice_partial.

(** C51 for programs as they are written. *)
Theorem C53_written_programs_do_not_go_wrong_partial : forall M ds P n, declare_all ds = Accepted P -> all_names_ok ds -> unshadowed ds ->
  all_complete ds -> externs_ok M P (checked n P) -> check_program n P = [] ->
  forall k f d vs, nth_error (p_funs P) f = Some d -> Forall2 plain_val vs (map snd (f_params d)) ->
  match call M P (checked n P) k [] (VFun f) vs with
  | Wrong => False
  | CheckSpec.Fine (v, _) => plain_type (f_ret d) -> plain_val v (f_ret d)
  | _ => True
  end.
Proof. intros M ds P n A N U C. exact (C51_accepted_programs_do_not_go_wrong_partial M P n (declared_well ds P A N U C)). Qed.
Print Assumptions C53_written_programs_do_not_go_wrong_partial.

(** struct pair<A, B>(fst: A, snd: B); enum opt<C>(None(), Some(x: C));
    fn get<T>(o: opt<T>, other: T) T; fn first(p: pair<int, string>) int;
    fn main() int { return get(Some(first(Pair(3, "s"))), 0) } *)
Definition one (x : string) : texp := XNamed x None.
Definition ds0 : list decl :=
  [DFn "main" [] [] (Some (one "int")) (DBlock (fun _ => [SReturn (Some (ECall (EId "get") []
     [ECall (EId "Some") [] [ECall (EId "first") [] [ECall (EId "Pair") [] [ELit (LInt 3); ELit (LStr "s")]]]; ELit (LInt 0)]))]));
   DStruct "pair" ["A"; "B"] [("fst", one "A"); ("snd", one "B")];
   DEnum "opt" ["C"] [("None", []); ("Some", [("x", one "C")])];
   DFn "get" ["T"] [("o", XNamed "opt" (Some [one "T"])); ("other", one "T")] (Some (one "T")) (DBlock (fun _ =>
     [SMatch (EId "o") [("None", [], [SReturn (Some (EId "other"))]); ("Some", ["v"], [SReturn (Some (EId "v"))])]]));
   DFn "first" [] [("p", XNamed "pair" (Some [one "int"; one "string"]))] (Some (one "int")) (DExpr (fun _ => EDot (EId "p") (EId "fst")))].
Fixpoint no_bracket (x : string) : bool :=
  match x with EmptyString => true | String c r => negb (Ascii.eqb c "(") && no_bracket r end.
Lemma no_bracket_ok : forall x, no_bracket x = true -> name_ok x.
Proof.
  induction x as [|c x IH]; intros N [|d a] b Q; cbn in Q; try discriminate.
  - injection Q as -> ->. discriminate.
  - injection Q as -> ->. cbn in N. apply andb_true_iff in N as [_ N]. exact (IH N a b eq_refl).
Qed.
Ltac bracket := apply no_bracket_ok; reflexivity.
Ltac ok_names := repeat first [ apply Forall_nil | apply Forall_cons | split | bracket | apply names_ok_raw | apply names_ok_named | apply names_ok_proc | apply names_ok_fun | apply names_ok_arr ]; cbn; auto.
Ltac cases := let d := fresh in let I := fresh in intros d I; repeat (destruct I as [<-|I]; [|]); try contradiction.
Ltac members := let y := fresh in let ps := fresh in let I := fresh in intros y ps I; cbn in I;
  repeat (destruct I as [I|I]; [injection I as <- <-|]); try contradiction.
Definition of_decls (ds : list decl) : program := match declare_all ds with Accepted P => P | _ => Program (Genv [] [] [] []) [] end.
Example C53_case : (exists P, declare_all ds0 = Accepted P /\ check_program 30 P = [] /\
    match call M0 P (checked 30 P) 30 [] (VFun 2) [] with CheckSpec.Fine (v, _) => v = VInt 3 | _ => False end) /\
  unshadowed ds0 /\ all_names_ok ds0 /\ all_complete ds0.
Proof.
  split; [exists (of_decls ds0); split; [vm_compute; reflexivity|]; split; vm_compute; reflexivity|]. split; [|split].
  - intros x tps ms I J. cbn in I. decompose [or] I; try discriminate; try contradiction.
    match goal with H : _ = _ |- _ => injection H as <- <- <- end. cbn in J. intuition discriminate.
  - cases; ok_names. all: members; ok_names.
  - cases; cbn; auto.
    + repeat (apply Forall_cons; [constructor; cbn; auto|]); apply Forall_nil.
    + members; repeat (apply Forall_cons; [constructor; cbn; auto|]); apply Forall_nil.
Qed.

(** Good declarations are accepted, in whichever order. *)
Theorem C53_good_declarations_are_accepted : forall ds cs, good ds cs -> exists P, declare_all ds = Accepted P.
Proof. exact accepted. Qed.
Print Assumptions C53_good_declarations_are_accepted.
Ltac different := match goal with |- NoDup ?l => let l' := eval vm_compute in l in change (NoDup l'); repeat (constructor; [cbn; intuition discriminate|]); constructor end.
Ltac writes := repeat first [ apply Forall_nil | apply Forall_cons | apply ww_arr | apply ww_proc | apply ww_fun
  | eapply ww_of; [cbn; intuition discriminate|cbn; tauto|discriminate|reflexivity|] | apply ww_param; cbn; tauto | eapply ww_name; cbn; tauto ].
Fixpoint occurs (c x : string) : bool := String.prefix c x || match x with String _ r => occurs c r | EmptyString => false end.
Lemma occurs_not : forall c x, occurs c x = false -> lacks c x.
Proof.
  intros c x H a b E. subst x. induction a as [|k a IH].
  - assert (P : forall c b, String.prefix c (c ++ b) = true).
    { clear. induction c as [|k c IH]; intros b; cbn; [destruct b; reflexivity|]. rewrite IH. destruct (ascii_dec k k); congruence. }
    cbn [String.append] in H. specialize (P c b). destruct (c ++ b)%string; cbn [occurs] in H; rewrite P in H; discriminate.
  - cbn [String.append occurs] in H. apply orb_false_iff in H. apply IH, H.
Qed.
Ltac a_word := split; [discriminate|repeat (apply Forall_cons; [apply occurs_not; reflexivity|]); apply Forall_nil].
Ltac some_words := repeat first [ apply Forall_nil | apply Forall_cons | apply words_named; [a_word|] | apply words_name; a_word | apply words_fun | apply words_arr ].
Example C53_good_case : good ds0 ["Pair"].
Proof.
  constructor.
  - different.
  - intros x I J. cbn in I, J. intuition (subst; discriminate).
  - intros i j x ts us ps qs r q b c I J N F.
    assert (K : NoDup (fun_names ds0)) by (cbn; different).
    assert (Q : forall k y vs ws t d, nth_error ds0 k = Some (DFn y vs ws t d) -> (k, y) = (0, "main") \/ (k, y) = (3, "get") \/ (k, y) = (4, "first")).
    { clear. intros k y vs ws t d H. do 5 (destruct k as [|k]; [cbn in H; try discriminate; injection H as <- _ _ _ _; auto|]). destruct k; discriminate. }
    apply Q in I, J. destruct I as [I|[I|I]], J as [J|[J|J]]; injection I as -> ->; try discriminate J; injection J as ->; auto.
  - cbn. repeat (apply Forall_cons; [a_word|]). apply Forall_nil.
  - intros x ts ps r b I. cbn in I. destruct I as [I|[I|[I|[I|[I|[]]]]]]; try discriminate I; injection I as <- <- <- <- <-; split; try a_word; cbn; some_words.
  - cbn. apply Forall2_cons; [exact (capital_of 112 "air" ltac:(repeat constructor))|apply Forall2_nil].
  - cases.
    + split; [different|]. split; [apply Forall_nil|]. writes.
    + split; [different|]. writes.
    + split; [different|]. members; (split; [different|]); (split; [repeat constructor|]); writes.
    + split; [different|]. split; writes.
    + split; [different|]. split; writes.
Qed.

(** Functions are told apart by the types of their parameters: only functions of one name with
    types that differ at most in results of functions have one key. *)
Theorem C53_functions_are_told_apart : forall x y ts us ps qs r q b c, word x -> word y -> Forall words (map snd ps) -> Forall words (map snd qs) ->
  (decl_name (DFn x ts ps r b) = decl_name (DFn y us qs q c) <-> x = y /\ Forall2 written_alike (map snd ps) (map snd qs)).
Proof. exact functions_told_apart. Qed.
Print Assumptions C53_functions_are_told_apart.
Example C53_told_apart_case : forall b c,
  decl_name (DFn "f" [] [("x", XArr (one "int")); ("y", XNamed "box" (Some [one "T"]))] None b) <>
    decl_name (DFn "f" [] [("x", one "int"); ("y", XNamed "box" (Some [one "T"]))] None c) /\
  word "f" /\ Forall words [XArr (one "int"); XNamed "box" (Some [one "T"])].
Proof. intros b c. split; [discriminate|]. split; [a_word|unfold one; some_words]. Qed.

(** What is refused. *)
Example C53_refused_case :
  declare_all [DStruct "a" [] [("x", one "int"); ("x", one "string")]] = Errors [DRedeclared] /\
  declare_all [DStruct "a" [] [("x", one "b")]] = Errors [DUnknownType] /\
  declare_all [DStruct "a" ["T"] [("x", one "T")]; DStruct "b" [] [("y", XNamed "a" (Some [one "int"; one "int"]))]] = Errors [DNumberTypeArgs] /\
  declare_all [DStruct "int" [] []] = Errors [DRedeclared] /\
  declare_all [DStruct "A" [] []] = Errors [DStructNaming] /\
  declare_all [DStruct "a" [] []; DFn "A" [] [] None DExtern] = Errors [DConstructorOverride].
Proof. repeat split; reflexivity. Qed.

(** An enum whose type parameter has its name: the constructor gives a T for any T.
    enum t<t>(A(x: t)); fn main() int { return A(5) + 1 } *)
Definition ds1 : list decl :=
  [DEnum "t" ["t"] [("A", [("x", one "t")])];
   DFn "main" [] [] (Some (one "int")) (DBlock (fun _ => [SReturn (Some (EArith OAdd (ECall (EId "A") [] [ELit (LInt 5)]) (ELit (LInt 1))))]))].
Theorem C53_enum_named_like_its_parameter_refuted : exists ds P n k f, declare_all ds = Accepted P /\ all_names_ok ds /\ all_complete ds /\
  check_program n P = [] /\ nth_error (p_funs P) f <> None /\ call M0 P (checked n P) k [] (VFun f) [] = Wrong.
Proof.
  exists ds1, (of_decls ds1), 30, 30, 3. split; [vm_compute; reflexivity|]. split; [|split].
  - cases; ok_names. members; ok_names.
  - cases; cbn; auto. members; repeat (apply Forall_cons; [constructor; cbn; auto|]); apply Forall_nil.
  - split; [vm_compute; reflexivity|]. split; [vm_compute; discriminate|vm_compute; reflexivity].
Qed.
Print Assumptions C53_enum_named_like_its_parameter_refuted.

(** The compiler follows a nil pointer when the constructor of a struct has the name of an
    enum or a struct.
    enum Point(Up()); struct point(x: int) *)
Theorem C53_declarations_never_crash_refuted : exists ds, all_names_ok ds /\ unshadowed ds /\ all_complete ds /\ no_repeats ds /\ declare_all ds = Crash.
Proof.
  exists [DEnum "Point" [] [("Up", [])]; DStruct "point" [] [("x", one "int")]]. split; [|split; [|split; [|split]]].
  - cases; ok_names. members; ok_names.
  - intros x tps ms [I|[I|[]]]; [injection I as <- <- <-; intros []|discriminate].
  - cases; cbn; auto.
    + members; apply Forall_nil.
    + apply Forall_cons; [apply complete_name; right; intros []|apply Forall_nil].
  - repeat split; cbn; repeat (constructor; [cbn; intuition discriminate|]); try constructor.
    cases; cbn; repeat split; repeat (constructor; [cbn; intuition discriminate|]); try constructor. members; constructor.
  - reflexivity.
Qed.
Print Assumptions C53_declarations_never_crash_refuted.

(** Functions are told apart by how their types are written: two that are the same but for the
    name of the type parameter are both accepted, ... *)
Definition dsf : list decl := [DFn "f" ["T"] [("x", one "T")] None (DBlock (fun _ => [])); DFn "f" ["U"] [("x", one "U")] None (DBlock (fun _ => []))].
Theorem C53_same_function_twice_refuted : exists P, declare_all dsf = Accepted P /\
  exists n, check_program n P = [].
Proof. exists (of_decls dsf); split; [vm_compute; reflexivity|]. exists 10. vm_compute. reflexivity. Qed.
Print Assumptions C53_same_function_twice_refuted.
(** ... and two that differ in the result of a parameter are refused. *)
Theorem C53_different_functions_refuted :
  declare_all [DFn "f" [] [("g", XFun [one "int"] (Some (one "int")))] None (DBlock (fun _ => []));
               DFn "f" [] [("g", XFun [one "int"] (Some (one "string")))] None (DBlock (fun _ => []))] = Errors [DRedeclared].
Proof. reflexivity. Qed.
Print Assumptions C53_different_functions_refuted.

(** A function with the name of a member is accepted after the enum and refused before it. *)
Theorem C53_order_of_declarations_refuted : exists a b, (exists P, declare_all [a; b] = Accepted P) /\ declare_all [b; a] = Errors [DRedeclared].
Proof.
  exists (DEnum "e" [] [("A", [])]), (DFn "A" [] [("x", one "int")] None (DBlock (fun _ => []))). split; [|reflexivity].
  eexists. vm_compute. reflexivity.
Qed.
Print Assumptions C53_order_of_declarations_refuted.
