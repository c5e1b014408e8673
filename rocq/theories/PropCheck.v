(** The type checker: theorems for properties C51 and C52, and for C63 the part about
    what is accepted. *)
From Coq Require Import String List Bool PeanoNat ZArith.
From Verif Require Import TypeModel TypeSpec CheckModel CheckSpec CheckSafe CheckSound CheckFuel CheckAssign CheckPlaces.
Import ListNotations.
Local Open Scope string_scope.
Local Open Scope nat_scope.
Local Open Scope list_scope.

(* --------------------------------------------------------------------------------- C51 *)

(** Functions that are checked without errors and without notes follow the rules of types. *)
Theorem C51_checked_programs_follow_the_rules_partial : forall P n, declared_ok P -> check_program n P = [] ->
  well_typed P (checked n P).
Proof. intros P n D E. exact (program_checked P D n E). Qed.
Print Assumptions C51_checked_programs_follow_the_rules_partial.

(** Such a program never uses a value as something that it is not, whichever function is called
    with whichever values of the declared types, for all meanings of operators and external
    functions; what a function gives is of its declared type.  Missing: programs with one of
    the things that the checker lets pass without settling their types ([oddity]); for four of
    them see below. *)
Theorem C51_accepted_programs_do_not_go_wrong_partial : forall M P n, declared_ok P -> externs_ok M P (checked n P) ->
  check_program n P = [] ->
  forall k f d vs, nth_error (p_funs P) f = Some d -> Forall2 plain_val vs (map snd (f_params d)) ->
  match call M P (checked n P) k [] (VFun f) vs with
  | Wrong => False
  | Fine (v, _) => plain_type (f_ret d) -> plain_val v (f_ret d)
  | _ => True
  end.
Proof. intros M P n D X E k f d vs N V. exact (safe_from_outside M P _ (program_checked P D n E) X k f d vs N V). Qed.
Print Assumptions C51_accepted_programs_do_not_go_wrong_partial.

(** A meaning for the examples. *)
Definition M0 : meaning := Meaning
  (fun o x y => match o with OAdd => Some (x + y) | OSub => Some (x - y) | OMul => Some (x * y) | ODiv => if (y =? 0)%Z then None else Some (x / y) | _ => Some 0 end)%Z
  (fun o x y => match o with OAnd => andb x y | OOr => orb x y end)
  (fun o x y => match o with OGt => y <? x | OGte => y <=? x | OLt => x <? y | OLte => x <=? y | OEq => x =? y end)%Z
  Z.lnot Z.opp (fun s => Z.of_nat (String.length s))
  (fun a b => map Z.of_nat (seq (Z.to_nat a) (Z.to_nat (b - a)))) (fun _ _ => None).

(** struct pair<A, B>(fst: A, snd: B); enum opt<C>(none(), some(x: C)); a sum over an array, a
    match, a function that takes a function, and a main function with a closure, a field that
    is assigned to and calls of generic functions. *)
Definition fun_entry (f : nat) (d : fdef) : nat * ty := (f, TFun f (map snd (f_types d)) (map snd (f_params d)) (f_ret d)).
Definition pair_d := Fdef [("A", 0); ("B", 1)] [("fst", TParam 0); ("snd", TParam 1)] (TStruct 0 "pair" [TParam 0; TParam 1]) (BStruct "pair").
Definition none_d := Fdef [("C", 2)] [] (TEnum 0 "opt" [TParam 2]) (BCons "opt" 0).
Definition some_d := Fdef [("C", 2)] [("x", TParam 2)] (TEnum 0 "opt" [TParam 2]) (BCons "opt" 1).
Definition sum_d := Fdef [] [("xs", TArr TInt)] TInt (BBlock
  [SDas (EId "total") (ELit (LInt 0)); SForIn "x" (EId "xs") [SAs (EId "total") (EArith OAdd (EId "total") (EId "x"))]; SReturn (Some (EId "total"))]).
Definition get_d := Fdef [("T", 3)] [("o", TEnum 0 "opt" [TParam 3]); ("other", TParam 3)] (TParam 3) (BBlock
  [SMatch (EId "o") [("None", [], [SReturn (Some (EId "other"))]); ("Some", ["v"], [SReturn (Some (EId "v"))])]]).
Definition twice_d := Fdef [] [("f", TFun 0 [] [TInt] TInt); ("x", TInt)] TInt (BExpr (ECall (EId "f") [] [ECall (EId "f") [] [EId "x"]])).
Definition main_d := Fdef [] [] TInt (BBlock
  [SDas (EId "k") (ELit (LInt 3));
   SDas (EId "p") (ECall (EId "Pair") [] [EId "k"; ELit (LStr "s")]);
   SAs (EDot (EId "p") (EId "fst")) (EArith OAdd (EDot (EId "p") (EId "fst")) (ELit (LInt 1)));
   SDas (EId "g") (EFn [] [("n", TInt)] TInt [SReturn (Some (EArith OMul (EId "n") (EId "k")))]);
   SAs (EId "k") (ELit (LInt 100));
   SReturn (Some (ECall (EId "get") [] [ECall (EId "Some") [] [ECall (EId "twice") [] [EId "g"; EDot (EArrLit [ELit (LInt 1); EDot (EId "p") (EId "fst")]) (ECall (EId "sum") [] [])]]; ELit (LInt 0)]))]).
Definition env0 : genv := Genv
  [("Pair", GFuns [fun_entry 0 pair_d]); ("None", GFuns [fun_entry 1 none_d]); ("Some", GFuns [fun_entry 2 some_d]);
   ("sum", GFuns [fun_entry 3 sum_d]); ("get", GFuns [fun_entry 4 get_d]); ("twice", GFuns [fun_entry 5 twice_d])]
  [("pair", ([0; 1], [("fst", TParam 0); ("snd", TParam 1)]))] [("opt", ([2], [1; 2]))] [].
Definition P0 : program := Program env0 [pair_d; none_d; some_d; sum_d; get_d; twice_d; main_d].

Ltac names := repeat match goal with H : context [String.eqb ?a ?b] |- _ => destruct (String.eqb a b) end.
Ltac indexes := repeat match goal with H : nth_error _ ?f = Some _ |- _ => is_var f; destruct f; cbn in H; try discriminate H end.
Ltac distinct := match goal with |- NoDup ?l => let l' := eval cbn in l in exact (NoDup_nodup Nat.eq_dec l') end.
Ltac declarations :=
  split; [|split; [|split; [|split]]];
  [ intros x first more H; cbn in H; names; try discriminate; injection H as <- <-;
    (split; [intros _; eexists _, _; split; reflexivity|apply Forall_nil])
  | intros f d H; indexes; try (injection H as <-; distinct)
  | intros n ps fs H; cbn in H; names; try discriminate; injection H as <- <-; distinct
  | intros n ps ms H; cbn in H; names; try discriminate; injection H as <- <-;
    (split; [distinct|split; [distinct|]]; intros tag f H; indexes; try (injection H as <-; eexists; split; reflexivity))
  | intros f d H; indexes; try (injection H as <-; cbn; auto; eexists _, _; repeat split; try reflexivity;
      intros p q I Q; repeat (destruct I as [<-|I]; [cbn in Q; inversion Q; subst; cbn; auto|]); contradiction) ].

Example C51_case : declared_ok P0 /\ externs_ok M0 P0 (checked 30 P0) /\ check_program 30 P0 = [] /\
  match call M0 P0 (checked 30 P0) 30 [] (VFun 6) [] with Fine (v, _) => v = VInt 45 | _ => False end.
Proof.
  split; [declarations|]. split; [intros f d vs v _ _ H; discriminate|]. split; reflexivity.
Qed.

(** What the checker lets pass.  Here the program has no errors, and goes wrong. *)
Definition goes_wrong (P : program) : Prop := declared_ok P /\
  exists n k f, errors (check_program n P) = [] /\ externs_ok M0 P (checked n P) /\
    nth_error (p_funs P) f <> None /\ call M0 P (checked n P) k [] (VFun f) [] = Wrong.
Ltac wrong n k f := split; [declarations|]; exists n, k, f; split; [reflexivity|]; split; [intros ? ? ? ? _ _ H; discriminate H|]; split; [discriminate|reflexivity].

(** Errors inside of the parts of a ternary are lost when the part has a type: the first
    function gives a string and says int.
    fn main() { f := true ? fn() int { return "s" } : fn() int { return 1 }; f() + 1 } *)
Definition lost_d := Fdef [] [] TNothing (BBlock
  [SDas (EId "f") (ETern (ELit (LBool true)) (EFn [] [] TInt [SReturn (Some (ELit (LStr "s")))]) (EFn [] [] TInt [SReturn (Some (ELit (LInt 1)))]));
   SExpr (EArith OAdd (ECall (EId "f") [] []) (ELit (LInt 1)))]).
Definition P1 : program := Program (Genv [] [] [] []) [lost_d].
Theorem C51_lost_errors_refuted : exists P, goes_wrong P.
Proof. exists P1. wrong 30 30 0. Qed.
Print Assumptions C51_lost_errors_refuted.
Example C51_lost_errors_case : check_program 30 P1 = [Odd DroppedErrors].
Proof. reflexivity. Qed.

(** A function is kept as a value with its type parameters open, and may be replaced by one
    that has them settled.
    fn id<T>(x: T) T { f := id; f = fn(y: T) T { return x }; f(3) + 1; return x } *)
Definition id_d := Fdef [("T", 0)] [("x", TParam 0)] (TParam 0) (BBlock
  [SDas (EId "f") (EId "id"); SAs (EId "f") (EFn [] [("y", TParam 0)] (TParam 0) [SReturn (Some (EId "x"))]);
   SExpr (EArith OAdd (ECall (EId "f") [] [ELit (LInt 3)]) (ELit (LInt 1))); SReturn (Some (EId "x"))]).
Definition use_d := Fdef [] [] TString (BExpr (ECall (EId "id") [] [ELit (LStr "s")])).
Definition P2 : program := Program (Genv [("id", GFuns [fun_entry 0 id_d])] [] [] []) [id_d; use_d].
Theorem C51_open_function_values_refuted : exists P, goes_wrong P /\
  exists n, check_program n P = [Odd GenericValueCalled].
Proof. exists P2. split; [wrong 30 30 1|exists 30; reflexivity]. Qed.
Print Assumptions C51_open_function_values_refuted.

(** A field of the result of a function that was not called.
    struct box(v: int); fn make() fn() box; fn main() { make().v + 1 } *)
Definition box_d := Fdef [] [("v", TInt)] (TStruct 0 "box" []) (BStruct "box").
Definition make_d := Fdef [] [] (TFun 0 [] [] (TStruct 0 "box" [])) (BBlock
  [SReturn (Some (EFn [] [] (TStruct 0 "box" []) [SReturn (Some (ECall (EId "Box") [] [ELit (LInt 1)]))]))]).
Definition field_d := Fdef [] [] TNothing (BBlock [SExpr (EArith OAdd (EDot (ECall (EId "make") [] []) (EId "v")) (ELit (LInt 1)))]).
Definition P3 : program := Program (Genv [("Box", GFuns [fun_entry 0 box_d]); ("make", GFuns [fun_entry 1 make_d])]
  [("box", ([], [("v", TInt)]))] [] []) [box_d; make_d; field_d].
Theorem C51_field_of_function_refuted : exists P, goes_wrong P /\ exists n, check_program n P = [Odd FieldOfFunction].
Proof. exists P3. split; [wrong 30 30 2|exists 30; reflexivity]. Qed.
Print Assumptions C51_field_of_function_refuted.

(** Calls are not checked when the function has the name of a built-in one.
    fn main() { printf := fn(x: int) int { return x + 1 }; printf("s") } *)
Definition printf_d := Fdef [] [] TNothing (BBlock
  [SDas (EId "printf") (EFn [] [("x", TInt)] TInt [SReturn (Some (EArith OAdd (EId "x") (ELit (LInt 1))))]);
   SExpr (ECall (EId "printf") [] [ELit (LStr "s")])]).
Definition P4 : program := Program (Genv [] [] [] []) [printf_d].
Theorem C51_built_in_names_refuted : exists P, goes_wrong P /\ exists n, check_program n P = [Odd UncheckedCall].
Proof. exists P4. split; [wrong 30 30 0|exists 30; reflexivity]. Qed.
Print Assumptions C51_built_in_names_refuted.

(* --------------------------------------------------------------------------------- C63 *)

(** Calls may be assigned to when they give a struct or an array, and names of functions.
    struct box(v: int); fn main() { box(1) = box(2) }; fn main() { main = main } *)
Definition assign_call_d := Fdef [] [] TNothing (BBlock [SAs (ECall (EId "Box") [] [ELit (LInt 1)]) (ECall (EId "Box") [] [ELit (LInt 2)])]).
Definition P5 : program := Program (Genv [("Box", GFuns [fun_entry 0 box_d])] [("box", ([], [("v", TInt)]))] [] []) [box_d; assign_call_d].
Definition assign_fun_d := Fdef [] [] TNothing (BBlock [SAs (EId "main") (EId "main")]).
Definition P6 : program := Program (Genv [("main", GFuns [fun_entry 0 assign_fun_d])] [] [] []) [assign_fun_d].
Theorem C63_accepted_assignments_have_places_refuted :
  (exists P, goes_wrong P /\ exists n, check_program n P = [Odd AssignToCall]) /\
  (exists P, goes_wrong P /\ exists n, check_program n P = [Odd AssignToFunction]).
Proof. split; [exists P5; split; [wrong 30 30 1|exists 30; reflexivity]|exists P6; split; [wrong 30 30 0|exists 30; reflexivity]]. Qed.
Print Assumptions C63_accepted_assignments_have_places_refuted.

(** In functions checked without errors and without notes every assignment, however deep, in
    blocks, loops, cases and function literals, has a variable, a field or an element on the
    left.  Partial: the notes are for the two kinds of assignments above and for what
    the theorems C51_..._refuted are about. *)
Theorem C63_accepted_assignments_have_places_partial : forall P n f b l r, declared_ok P -> check_program n P = [] ->
  nth_error (checked n P) f = Some b -> in_body b (AStmt (KAs l r)) ->
  match l with CVar _ | CField _ _ _ | CIndex _ _ => True | _ => False end.
Proof. intros P n f b l r D E Hb Hi. exact (assigned_places P _ f b l r (program_checked P D n E) Hb Hi). Qed.
Print Assumptions C63_accepted_assignments_have_places_partial.
(** total = total + x in the loop of sum. *)
Example C63_places_case : exists b r, check_program 30 P0 = [] /\ nth_error (checked 30 P0) 3 = Some b /\ in_body b (AStmt (KAs (CVar "total") r)).
Proof.
  do 2 eexists. split; [reflexivity|]. split; [vm_compute; reflexivity|]. cbn [in_body]. eexists. split; [right; left; reflexivity|].
  eapply within_below; [apply has_for_in_b; left; reflexivity|]. apply within_same.
Qed.

(** In every program, accepted or not, an assignment that is kept has on the left a variable, a
    field, an element, what a pointer points to, a name of a function or of a type, or a call:
    never a literal, an operator, a ternary, a function literal, an array literal or a length. *)
Theorem C63_what_may_be_assigned_to : forall P n f b l r, nth_error (checked n P) f = Some b -> in_body b (AStmt (KAs l r)) ->
  match l with
  | CVar _ | CField _ _ _ | CIndex _ _ | CDeref _ | CFun _ | CType _ | CCall _ _ | CPrint _ | CUnsafe _ => True
  | CLit _ | CArith _ _ _ | CLogic _ _ _ | CCmp _ _ _ | CNot _ | CBNot _ | CNeg _ | CLength _ | CArrLit _ | CTern _ _ _
  | CClos _ _ _ | CClosExpr _ _ _ => False
  end.
Proof. intros P n f b l r Hb Hi. pose proof (written_only P n f b l r Hb Hi) as H. destruct l; exact H. Qed.
Print Assumptions C63_what_may_be_assigned_to.
Example C63_call_case : exists b f args r, nth_error (checked 30 P5) 1 = Some b /\ in_body b (AStmt (KAs (CCall f args) r)).
Proof. do 4 eexists. split; [vm_compute; reflexivity|]. eexists. split; [left; reflexivity|]. apply within_same. Qed.

(* --------------------------------------------------------------------------------- C52 *)

(** Checking ends for every program: beyond some bound the fuel makes no difference, and it
    does not run out. *)
Theorem C52_checking_ends : forall P, exists n0, forall n, n0 <= n ->
  check_program n P = check_program n0 P /\ checked n P = checked n0 P /\ ~ In (Err OutOfFuel) (check_program n P).
Proof. exact checking_ends. Qed.
Print Assumptions C52_checking_ends.

(** Every function without errors is given a tree that can be run, and the walk never leaves an
    expression without a type and without an error. *)
Theorem C52_no_type_is_an_error : forall P n F C e, declared_ok P -> agree F C -> fst (check_expr n (p_env P) F e) = [] ->
  exists c t, snd (check_expr n (p_env P) F e) = Some (c, t) /\ typed P C c t.
Proof.
  intros P n F C e D A E. destruct (check_expr n (p_env P) F e) as [i r] eqn:Q. cbn in E |- *. subst i.
  exact (proj1 (walk_ok P D n) F C e r A Q).
Qed.
Print Assumptions C52_no_type_is_an_error.

Example C52_case : check_program 3 P0 <> check_program 30 P0 /\ check_program 30 P0 = check_program 40 P0.
Proof. split; [vm_compute; discriminate|reflexivity]. Qed.
