(** Properties C10-C16: scopes, types, inference, overloads, labels.  Statements use
    ScopeModel, TypeModel, TypeGraph (the code) and ScopeSpec, TypeSpec and the
    specification part of TypeGraph. *)
From Coq Require Import Ascii String List Bool PeanoNat Lia.
From Verif Require Import ScopeModel ScopeSpec ScopeProofs.
From Verif Require Import TypeModel TypeSpec TypeProofs TypeLabels TypeGraph.
Import ListNotations.
Local Open Scope string_scope.

(* ------------------------------------------------------------------------ C10 *)

(** C10: for every history of opening and closing scopes, declaring and looking up,
    the tables answer as the scopes of ScopeSpec do: a lookup finds the declaration
    in the innermost scope that has one, a second declaration in one scope is
    refused.  (ResolveAll and Owns are covered too.) *)
Theorem C10_lexical_scoping : forall ops, snd (run (new_symtab, 0) ops) = snd (spec_run [[]] ops).
Proof. exact scoping. Qed.
Print Assumptions C10_lexical_scoping.

(** A refused declaration leaves the tables exactly as they were, and it is refused
    exactly when the scope has the name already. *)
Theorem C10_redeclaration_changes_nothing : forall st i s st' s' found, define st i s = (st', s', found) ->
  (found = true -> st' = st) /\
  (found = true <-> map_get (tb_symbols (at_table st i)) (sy_name s) <> None).
Proof. exact redeclaration. Qed.
Print Assumptions C10_redeclaration_changes_nothing.

(** After a scope is left, everything is answered as if it had never been opened. *)
Theorem C10_leaving_restores : forall before inside after, balanced inside ->
  snd (run (fst (run (new_symtab, 0) (before ++ Open :: inside ++ [Close]))) after) =
  snd (run (fst (run (new_symtab, 0) before)) after).
Proof. exact scope_restores. Qed.
Print Assumptions C10_leaving_restores.

Example C10_example :
  let x1 := Symbol 1 "x" in let x2 := Symbol 2 "x" in let x3 := Symbol 3 "x" in let y := Symbol 4 "y" in
  snd (run (new_symtab, 0)
    [Declare x1; Open; Lookup "x"; Declare x2; Lookup "x"; Declare x3; Lookup "x"; Own x1; Open; Lookup "x";
     Declare y; LookupAll "x" (fun s => Nat.eqb (sy_id s) 1); Close; Close; Lookup "x"; Lookup "y"]) =
  [Declared x1 false; Done; Found (Some x1); Declared x2 false; Found (Some x2); Declared x2 true; Found (Some x2);
   Owned false; Done; Found (Some x2); Declared y false; Found (Some x1); Done; Done; Found (Some x1); Found None].
Proof. reflexivity. Qed.

Example C10_balanced_example : balanced [Declare (Symbol 2 "x"); Open; Lookup "x"; Close].
Proof.
  apply bal_step; [discriminate|discriminate|]. apply (bal_scope [Lookup "x"] []); [|constructor].
  apply bal_step; [discriminate|discriminate|constructor].
Qed.

(* ------------------------------------------------------------------------ C11 *)

(** C11: matching is reflexive, symmetric and transitive, and holds exactly for the
    same types, whatever declaration objects they point to. *)
Theorem C11_matching_is_an_equivalence :
  (forall t, matches t t = true) /\
  (forall t x, matches t x = matches x t) /\
  (forall t x y, matches t x = true -> matches x y = true -> matches t y = true) /\
  (forall t x, matches t x = true <-> same t x).
Proof. exact matches_equivalence. Qed.
Print Assumptions C11_matching_is_an_equivalence.

Example C11_example :
  matches (TFun 1 [] [TArr (TStruct 7 "pair" [TInt; TParam 3])] (TEnum 9 "option" [TString]))
          (TFun 2 [] [TArr (TStruct 8 "pair" [TInt; TParam 3])] (TEnum 5 "option" [TString])) = true /\
  matches (TStruct 7 "pair" [TInt; TParam 3]) (TStruct 7 "pair" [TInt; TParam 4]) = false /\
  matches (TStruct 7 "pair" [TInt]) (TEnum 7 "pair" [TInt]) = false.
Proof. repeat split. Qed.

(* ------------------------------------------------------------------------ C12 *)

(** C12: when a call is accepted there is one choice of types for type parameters
    that makes every parameter type the type of its argument and is the one written
    in the call, if one is; the result has the type given by this choice.  Types of
    arguments are those after names with overloads were settled.  If the signature
    mentions only the function's own type parameters, no other is changed.
    (The type parameters of a function are distinct objects, semantic.go:361-371.) *)
Theorem C12_inference_is_sound : forall i types params ret explicit args r args', NoDup types ->
  match_by_type (TFun i types params ret) explicit args = (Ok r, args') ->
  exists s : nat -> ty,
    Forall2 settled args args' /\
    Forall2 (fun a p => same (ar_typ a) (apply s p)) args' params /\
    same r (apply s ret) /\
    (explicit <> [] -> Forall2 (fun p t => s p = t) types explicit) /\
    ((forall p, Exists (mentions p) params -> In p types) -> forall p, ~ In p types -> s p = TParam p).
Proof. exact call_sound. Qed.
Print Assumptions C12_inference_is_sound.

Example C12_example : (* fn map«T, U»(g: fn(T) U, x: []T, y: T) []U *)
  let map := TFun 0 [1; 2] [TFun 0 [] [TParam 1] (TParam 2); TArr (TParam 1); TParam 1] (TArr (TParam 2)) in
  let g := Arg (TFun 0 [] [TInt] TString) [] in
  match_by_type map [] [g; Arg (TArr TInt) []; Arg TInt []] =
    (Ok (TArr TString), [g; Arg (TArr TInt) []; Arg TInt []]) /\
  fst (match_by_type map [] [g; Arg (TArr TInt) []; Arg TString []]) = Err MismatchedTypes /\
  fst (match_by_type map [TInt; TBool] [g; Arg (TArr TInt) []; Arg TInt []]) = Err MismatchedTypes.
Proof. repeat split. Qed.

(* ------------------------------------------------------------------------ C13 *)

(** C13, for result types with no function type inside: every type parameter of the
    called function that the result type mentions was written in the call or is
    mentioned by a parameter, so that inference determined it (C12); and the type of
    the call mentions no type parameter of the function unless an argument or a
    written type argument does. *)
Theorem C13_no_unbound_parameter_partial :
  forall i types params ret explicit args r args', NoDup types -> functionless ret ->
  match_by_type (TFun i types params ret) explicit args = (Ok r, args') ->
  (forall p, In p types -> mentions p ret -> determined types params explicit p) /\
  (forall p, In p types -> (forall a, In a args' -> ~ mentions p (ar_typ a)) ->
             (forall t, In t explicit -> ~ mentions p t) -> ~ mentions p r).
Proof. exact result_determined. Qed.
Print Assumptions C13_no_unbound_parameter_partial.

(** In general it is false: [fn f«T»() fn(T) T] can be called, though nothing
    determines T; the type of the call is [fn(T) T]. *)
Theorem C13_refuted : exists types params ret r p, NoDup types /\ In p types /\
  match_by_type (TFun 0 types params ret) [] [] = (Ok r, []) /\
  mentions p r /\ ~ determined types params [] p.
Proof.
  exists [1], [], (TFun 0 [] [TParam 1] (TParam 1)), (TFun 0 [] [TParam 1] (TParam 1)), 1.
  split; [repeat constructor; intros []|]. split; [left; reflexivity|]. split; [reflexivity|].
  split; [apply m_ret; constructor|]. intros [[H _]|H]; [congruence|inversion H].
Qed.
Print Assumptions C13_refuted.

Example C13_example : (* fn f«T»() []T is refused, fn f«T, U»(x: T) []T is not *)
  match_by_type (TFun 0 [1] [] (TArr (TParam 1))) [] [] = (Err TypeParameterNotKnown, []) /\
  match_by_type (TFun 0 [1; 2] [TParam 1] (TArr (TParam 1))) [] [Arg TInt []] = (Ok (TArr TInt), [Arg TInt []]).
Proof. split; reflexivity. Qed.

(* ------------------------------------------------------------------------ C14 *)

(** C14, for arguments none of which is the name of several functions: the overload
    chosen is the first that is applicable, the call is refused exactly when none
    is, and the arguments are left as they were. *)
Theorem C14_first_applicable_overload_partial :
  forall chain explicit args, plain args -> Forall (fun c => distinct_types (snd c)) chain ->
  snd (match_by_symbol chain explicit args) = args /\
  match fst (match_by_symbol chain explicit args) with
  | inl (s, r) =>
    exists before t after, chain = (before ++ (s, t) :: after)%list /\
      fst (match_by_type t explicit args) = Ok r /\
      applicable t explicit (map ar_typ args) /\
      Forall (fun c => ~ applicable (snd c) explicit (map ar_typ args)) before
  | inr es => Forall (fun c => ~ applicable (snd c) explicit (map ar_typ args)) chain /\ length es = length chain
  end.
Proof. exact first_overload. Qed.
Print Assumptions C14_first_applicable_overload_partial.

Example C14_example : (* f(int), f«T»([]T), f(string): the second is chosen *)
  let f1 := TFun 0 [] [TInt] TInt in
  let f2 := TFun 0 [5] [TArr (TParam 5)] (TParam 5) in
  let f3 := TFun 0 [] [TString] TInt in
  fst (match_by_symbol [(1, f1); (2, f2); (3, f3)] [] [Arg (TArr TBool) []]) = inl (2, TBool) /\
  fst (match_by_symbol [(1, f1); (2, f2); (3, f3)] [] [Arg TBool []]) =
    inr [MismatchedTypes; MismatchedTypes; MismatchedTypes].
Proof. split; reflexivity. Qed.

(** In general it is false.  Given g(int) int and g(string) int, and overloads
    f(fn(string) int, string) and f(fn(int) int, int), the call f(g, 1) is refused,
    though the second overload alone accepts it: trying the first has settled [g]. *)
Theorem C14_refuted : exists c1 c2 args,
  (exists e, fst (match_by_type c1 [] args) = Err e) /\
  (exists r, fst (match_by_type c2 [] args) = Ok r) /\
  (exists es, fst (match_by_symbol [(1, c1); (2, c2)] [] args) = inr es).
Proof.
  exists (TFun 0 [] [TFun 0 [] [TString] TInt; TString] TInt), (TFun 0 [] [TFun 0 [] [TInt] TInt; TInt] TInt),
    [Arg (TFun 0 [] [TInt] TInt) [(7, TFun 0 [] [TInt] TInt); (8, TFun 0 [] [TString] TInt)]; Arg TInt []].
  split; [|split]; eexists; reflexivity.
Qed.
Print Assumptions C14_refuted.

(** Also inside one candidate, an overload of an argument that was rejected leaves
    its guesses behind: [fn f«T»(g: fn(T, int) bool)] refuses g with overloads
    g(int, string) and g(string, int), and accepts the second alone. *)
Theorem C14_argument_refuted : exists f g1 g2,
  (exists r, fst (match_by_type f [] [Arg g2 [(8, g2)]]) = Ok r) /\
  (exists e, fst (match_by_type f [] [Arg g1 [(7, g1); (8, g2)]]) = Err e).
Proof.
  exists (TFun 0 [5] [TFun 0 [] [TParam 5; TInt] TBool] TInt),
    (TFun 0 [] [TInt; TString] TBool), (TFun 0 [] [TString; TInt] TBool).
  split; eexists; reflexivity.
Qed.
Print Assumptions C14_argument_refuted.

(* ------------------------------------------------------------------------ C15 *)

(** C15 as it is: with something to substitute, substitution ends exactly for types
    that do not refer to themselves, directly or through others. *)
Theorem C15_substitution_ends_partial : forall b st t, no_nil st -> t < length st ->
  ((exists fuel r, gsubst fuel b st t = Some r) <-> b = [] \/ finite st t).
Proof. exact terminates_exactly. Qed.
Print Assumptions C15_substitution_ends_partial.

(** Instantiating any type expression ends when all declared types are such. *)
Theorem C15_instantiation_ends_partial : forall env nothing st, no_nil st ->
  (forall name t, env name = Some t -> t < length st /\ finite st t) ->
  forall e errs, exists fuel r, inst fuel env nothing st errs e = Some r.
Proof.
  exact (fun env nothing st Hn He e errs =>
    match instantiate_ends env nothing st Hn He e st errs (grows_refl st) with
    | ex_intro _ f (ex_intro _ r (conj _ H)) => ex_intro _ f (ex_intro _ r (H f (le_n f)))
    end).
Qed.
Print Assumptions C15_instantiation_ends_partial.

(** When it ends, the result is the tree that TypeModel computes. *)
Theorem C15_substitution_result : forall u fuel b c st t st' t', tree_binding st b c -> tree st t u ->
  gsubst fuel b st t = Some (st', t') -> exists u', tree st' t' u' /\ same u' (subst u c).
Proof. exact gsubst_tree. Qed.
Print Assumptions C15_substitution_result.

(** In a struct, fields keep their names and places and get the substituted types;
    an enum keeps its members. *)
Theorem C15_substitution_fields : forall fuel b c st t n ts fs st' t', b <> [] -> tree_binding st b c ->
  nth_error st t = Some (GStruct n ts fs) -> gsubst fuel b st t = Some (st', t') ->
  exists ts' fs', nth_error st' t' = Some (GStruct n ts' fs') /\
    Forall2 (fun f f' => fst f = fst f' /\
      forall u, tree st (snd f) u -> exists u', tree st' (snd f') u' /\ same u' (subst u c)) fs fs'.
Proof. exact gsubst_fields. Qed.
Print Assumptions C15_substitution_fields.

Theorem C15_substitution_members : forall fuel b st t n ts ms st' t', b <> [] ->
  nth_error st t = Some (GEnum n ts ms) -> gsubst fuel b st t = Some (st', t') ->
  exists ts', nth_error st' t' = Some (GEnum n ts' ms).
Proof. exact gsubst_members. Qed.
Print Assumptions C15_substitution_members.

(** In general it is false: for [struct node(next: node)], the result type of a call
    of [fn f«T»(x: T) node] is never computed. *)
Theorem C15_refuted : exists st t b, no_nil st /\ t < length st /\ forall fuel, gsubst fuel b st t = None.
Proof.
  exists [GStruct "node" [] [("next", 0)]; GParam; GInt], 0, [(1, 2)].
  assert (N : no_nil [GStruct "node" [] [("next", 0)]; GParam; GInt]).
  { intros [|[|[|t]]] n u H I; cbn in H; inversion H; subst; cbn in I; try (destruct I; [subst; cbn; lia|contradiction]);
      try contradiction. destruct t; discriminate. }
  split; [exact N|]. split; [cbn; lia|]. intro fuel.
  destruct (gsubst fuel [(1, 2)] [GStruct "node" [] [("next", 0)]; GParam; GInt] 0) as [r|] eqn:E; [|reflexivity].
  exfalso.
  assert (F : [(1, 2)] = [] \/ finite [GStruct "node" [] [("next", 0)]; GParam; GInt] 0).
  { apply terminates_exactly; [exact N|cbn; lia|eauto]. }
  destruct F as [F|F]; [discriminate|]. revert F. apply cyclic_infinite, reach_one.
  eexists. split; [reflexivity|left; reflexivity].
Qed.
Print Assumptions C15_refuted.

(** Nor can a generic struct refer to itself: for
    [struct list«T»(head: T, tail: list«T»)], instantiating the field type never ends. *)
Theorem C15_generic_refuted : exists st env e, no_nil st /\
  forall fuel, inst fuel env 2 st false e = None.
Proof.
  exists [GStruct "list" [1] [("head", 1); ("tail", 0)]; GParam; GNothing],
    (fun n => if String.eqb n "list" then Some 0 else if String.eqb n "T" then Some 1 else None),
    (XNamed "list" (Some [XNamed "T" None])).
  assert (N : no_nil [GStruct "list" [1] [("head", 1); ("tail", 0)]; GParam; GNothing]).
  { intros [|[|[|t]]] n u H I; cbn in H; inversion H; subst; cbn in I; try contradiction.
    - destruct I as [<-|[<-|[<-|[]]]]; cbn; lia.
    - destruct t; discriminate. }
  split; [exact N|]. intro fuel.
  cbn [inst String.eqb Ascii.eqb Bool.eqb nth_error length Nat.eqb negb map combine].
  destruct (gsubst fuel [(1, 1)] [GStruct "list" [1] [("head", 1); ("tail", 0)]; GParam; GNothing] 0)
    as [r|] eqn:E; [|reflexivity].
  exfalso.
  assert (F : [(1, 1)] = [] \/ finite [GStruct "list" [1] [("head", 1); ("tail", 0)]; GParam; GNothing] 0).
  { apply terminates_exactly; [exact N|cbn; lia|eauto]. }
  destruct F as [F|F]; [discriminate|]. revert F. apply cyclic_infinite, reach_one.
  eexists. split; [reflexivity|right; right; left; reflexivity].
Qed.
Print Assumptions C15_generic_refuted.

Example C15_example : (* struct pair«A, B»(first: A, second: []B) *)
  let st := [GStruct "pair" [1; 2] [("first", 1); ("second", 3)]; GParam; GParam; GArr 2; GInt; GString] in
  gsubst 5 [(1, 4); (2, 5)] st 0 =
    Some ((st ++ [GArr 5; GStruct "pair" [4; 5] [("first", 4); ("second", 6)]])%list, 7) /\
  finite st 0.
Proof.
  split; [reflexivity|].
  apply (ranked_finite _ (fun t => match t with 0 => 2 | 3 => 1 | _ => 0 end)).
  intros t u [n [H I]].
  destruct t as [|[|[|[|[|[|t]]]]]]; cbn in H; inversion H; subst; cbn in I;
    repeat (destruct I as [<-|I]; [cbn; lia|]); try contradiction.
  destruct t; discriminate.
Qed.

(* ------------------------------------------------------------------------ C16 *)

(** C16, for functions not named main and not external, whose parameter types
    mention no type parameter and no function type, and whose structs and enums have
    ordinary names: equal labels mean equal names and the same parameter types. *)
Theorem C16_labels_differ_partial : forall is_enum n m ps qs,
  identifier n -> identifier m -> n <> "main" -> m <> "main" ->
  Forall well_named ps -> Forall well_named qs -> Forall (concrete is_enum) ps -> Forall (concrete is_enum) qs ->
  fn_label false n ps = fn_label false m qs -> n = m /\ Forall2 same ps qs.
Proof. exact labels_differ. Qed.
Print Assumptions C16_labels_differ_partial.

(** Exactly which labels are equal, with type parameters and function types too. *)
Theorem C16_labels_exactly_partial : forall n m ps qs,
  identifier n -> identifier m -> n <> "main" -> m <> "main" ->
  Forall well_named ps -> Forall well_named qs ->
  (fn_label false n ps = fn_label false m qs <-> n = m /\ Forall2 alike ps qs).
Proof. exact labels_exactly. Qed.
Print Assumptions C16_labels_exactly_partial.

(** In general it is false: [fn f«T»(x: T)] and [fn f«R»(x: R)] may both be declared
    (their names f(T) and f(R) differ, ast.go:175-185) and get the same label. *)
Theorem C16_refuted : exists n ps qs, identifier n /\ ~ Forall2 same ps qs /\
  Forall well_named ps /\ Forall well_named qs /\ fn_label false n ps = fn_label false n qs.
Proof.
  exists "f", [TParam 1], [TParam 2]. split; [split; [discriminate|reflexivity]|].
  split; [intro H; inversion H as [|? ? ? ? S]; inversion S|].
  split; [repeat constructor|]. split; [repeat constructor|reflexivity].
Qed.
Print Assumptions C16_refuted.

(** So do functions of [[]int] and of a struct instance [array«int»]. *)
Theorem C16_array_refuted : exists n d, fn_label false n [TArr TInt] = fn_label false n [TStruct d "array" [TInt]].
Proof. exists "f", 0. reflexivity. Qed.
Print Assumptions C16_array_refuted.

Example C16_example :
  fn_label false "f" [TArr (TStruct 0 "pair" [TInt; TString]); TBool] = "clara_f.array$pair$int.string$$.bool" /\
  identifier "f" /\ well_named (TArr (TStruct 0 "pair" [TInt; TString])) /\
  concrete (fun _ => false) (TArr (TStruct 0 "pair" [TInt; TString])).
Proof.
  split; [reflexivity|]. split; [split; [discriminate|reflexivity]|]. split.
  - constructor. constructor; [split; [discriminate|reflexivity]| |repeat constructor].
    unfold reserved. cbn. intuition discriminate.
  - repeat constructor.
Qed.
