(** Properties C17-C21: missing returns, match statements and for statements.
    Statements use LowerModel, MatchModel (the code), GenSpec (what lowered statements
    mean) and LowerSpec. *)
From Coq Require Import ZArith List Bool String Lia Permutation.
From Verif Require Import Ints X86 GenModel GenSpec GenFuel LowerModel LowerSpec LowerFin LowerRet LowerVars LowerMatch LowerLoop LowerCalc MatchModel MatchProofs.
Import ListNotations.
Open Scope Z_scope.

(* --------------------------------------------------------- a small world for examples *)

Definition x_int := Ty TInteger 0.
Definition x_bool := Ty TBoolean 1.
Definition x_ints := Ty TArray 2.
Definition x_enum := Ty TStruct 3.
Definition x_shape := Ty TEnum 4.
Definition x_direct : fninfo := FnInfo false false false TInteger.
Definition x_ext : fninfo := FnInfo true false false TInteger.
Definition x_heap (a : Z) : bool := (0 <=? a) && (a <? 65536).
(** unsafe adds; tick counts its calls at 800 and returns the array at 400. *)
Definition x_extern (f : string) (vs : list (option Z)) (h : memory) : option (option Z * memory) :=
  if String.eqb f "unsafe" then
    match vs with [Some a; Some b; _] => Some (Some (word (a + ival b)), h) | _ => None end
  else if String.eqb f "tick" then Some (Some 400, store h 800 (load h 800 + 2))
  else None.
Definition x_none (f : string) (vs : list (option Z)) (h : memory) : option (option Z * memory) := None.
Definition x_as_enum : fundef := Fun "clara_asEnum" [(0%nat, x_shape)]
  (BExpr (ECall x_enum x_ext "unsafe" [EVar x_shape 0; ELitInt x_int 0; EType x_enum])) TStruct false.
Definition x_consts : consts := Consts x_int x_bool x_ints x_enum "clara_asEnum" x_direct.
Definition x_exec (n d : nat) (r : nat -> option Z) (h : memory) (s : stmt) :=
  exec_stmt x_heap (fun _ => 0) (fun _ => 0) (fun _ => None) x_extern x_none "" [x_as_enum] n d r h s.
Definition x_list (n d : nat) (r : nat -> option Z) (h : memory) (s : list stmt) :=
  exec_list x_heap (fun _ => 0) (fun _ => 0) (fun _ => None) x_extern x_none "" [x_as_enum] n d r h s.
Definition x_empty : nat -> option Z := fun _ => None.
Definition x_int_lit (z : Z) : expr := ELitInt x_int z.
Definition x_var (x : nat) : expr := EVar x_int x.
Definition x_assign (x : nat) (e : expr) : xstmt := XAs (x_var x) e.
Definition x_plus (a b : expr) : expr := EArith x_int Add a b.
Example x_as_enum_defined : as_enum_defined x_consts x_extern [x_as_enum].
Proof.
  split; [reflexivity|]. exists 0%nat, x_shape, x_int, x_enum, x_ext, "unsafe"%string, TStruct. repeat split.
Qed.

(* ------------------------------------------------------------------------ C17 *)

(** C17: on every way through a body that the check accepts there is a return. *)
Theorem C17_checked_bodies_return : forall ret body e,
  return_checked ret body = true -> ret <> TNothing -> goes_list body e -> e = Returns.
Proof.
  intros ret body e C N. apply checked_goes. unfold return_checked in C. apply orb_prop in C as [C|C]; [|exact C].
  destruct ret; try discriminate C. congruence.
Qed.
Print Assumptions C17_checked_bodies_return.

Section Worlds.
Variable heap : Z -> bool.
Variable lit : list Z -> Z.
Variable fun_addr : string -> Z.
Variable fun_at : Z -> option string.
Variable extern abstract : string -> list (option Z) -> memory -> option (option Z * memory).
Variable alloc : string.
Variable prog : list fundef.
Variable K : consts.
Notation eval' r h e := (fin (fun n d => eval heap lit fun_addr fun_at extern abstract alloc prog n d r h e)).
Notation args' r h l := (fin (fun n d => eval_args heap lit fun_addr fun_at extern abstract alloc prog n d r h l)).
Notation exec' r h s := (fin (fun n d => exec_stmt heap lit fun_addr fun_at extern abstract alloc prog n d r h s)).
Notation run' r h l := (fin (fun n d => exec_list heap lit fun_addr fun_at extern abstract alloc prog n d r h l)).
Notation stable' := (stable heap lit fun_addr fun_at extern abstract alloc prog).
Notation same_array' := (same_array heap lit fun_addr fun_at extern abstract alloc prog).
Notation keeps_length' := (keeps_length heap lit fun_addr fun_at extern abstract alloc prog).

(** The same for runs of the lowered body: with a branch that traps added to every
    match, no run ends without a return.  The branch changes nothing else: a run of the
    real lowered body that ends without a return is one that reaches such a branch, that
    is, a match met a value of none of its cases (C18 and C19 exclude that). *)
Theorem C17_checked_runs_return : forall k body p k1,
  last_terminates body = true -> lower_body K k body = Some (p, k1) ->
  exists c, lower_list K (no_case K) k body = Some (c, k1) /\
    forall r h R, run' r h p R ->
      (run' r h c R \/ run' r h c Stuck) /\ ((exists r1 h1, R = Val (ONormal, r1, h1)) -> run' r h c Stuck).
Proof. exact (checked_runs heap lit fun_addr fun_at extern abstract alloc prog K). Qed.

(* ------------------------------------------------------------------------ C19 *)

(** C19: a match statement evaluates its expression once; if the value was built by the
    member with the tag of a case, the statement does what the statements of that case
    do with the variables of the case standing for the values given at construction.
    (The new variable [k] is the only other difference.) *)
Theorem C19_match_runs_its_case : forall r h e w h1 tag vs vars body cases k st k',
  as_enum_defined K extern prog ->
  eval' r h e (Val (Some w, h1)) -> has_member heap h1 w tag vs ->
  In (tag, vars, body) cases -> NoDup (map case_tag cases) -> (forall c, In c cases -> is_int (case_tag c)) ->
  NoDup (map fst vars) -> List.length vars = List.length vs ->
  occurs k (XMatch e cases) = false -> lower K k (XMatch e cases) = Some (st, k') ->
  exists k1 k2 body', (k < k1)%nat /\ lower_body K k1 body = Some (body', k2) /\
    same_results [k] (fun R => exec' r h st R) (fun R => run' (case_env r vars vs) h1 body' R).
Proof. intros r h e w h1 tag vs vars body cases k st k' A. exact (member_case heap lit fun_addr fun_at extern abstract alloc prog K A r h e w h1 tag vs vars body cases k st k'). Qed.

(** The value of a call of the constructor of a member: the member's tag and the
    arguments. *)
Theorem C19_constructors_build_members : forall r h t fi f args fd tag id descr w h2,
  fi_external fi = false -> find_fun prog f = Some fd -> f_body fd = BCons (Some tag) id descr ->
  eval' r h (ECall t fi f args) (Val (Some w, h2)) -> forall vs h1, args' r h args (Val (map Some vs, h1)) ->
  List.length vs = List.length (f_params fd) -> (forall v, In v vs -> is_addr v) ->
  0 <= w -> w + 8 * (Z.of_nat (List.length vs) + 1) <= 2 ^ 64 ->
  has_member heap h2 w tag vs.
Proof. exact (constructed heap lit fun_addr fun_at extern abstract alloc prog). Qed.

(* ------------------------------------------------------------------------ C20 *)

(** C20, ascending ranges: [for x in a .. b] runs its body for a, ..., b-1, in order.
    What is missing: [b] must keep its value (the code evaluates it before every round);
    decreasing ranges other than to a literal 0 run no round at all. *)
Theorem C20_range_up_partial : forall x t a b body body' k k' st r h a0 b0 h1 I,
  lower K k (XRange x t a b false body) = Some (st, k') -> lower_body K k body = Some (body', k') ->
  (x < k)%nat -> assigned_any x body = false ->
  eval' r h a (Val (Some (wint a0), h1)) -> is_int a0 -> is_int b0 ->
  stable' x b (wint b0) body' I -> I r h1 ->
  same_results [x] (fun R => exec' r h st R) (each x (fun r h R => run' r h body' R) (upto a0 b0) r h1).
Proof. exact (range_up heap lit fun_addr fun_at extern abstract alloc prog K). Qed.

(** In particular for every bound calculated from variables that the body does not
    assign (literals included). *)
Theorem C20_range_up_calculated_partial : forall x t a b body body' k k' st r h a0 b0 h1,
  lower K k (XRange x t a b false body) = Some (st, k') -> lower_body K k body = Some (body', k') ->
  (x < k)%nat -> assigned_any x body = false ->
  eval' r h a (Val (Some (wint a0), h1)) -> is_int a0 -> is_int b0 ->
  calc b = true -> reads x b = false -> (forall y, reads y b = true -> (y < k)%nat /\ assigned_any y body = false) ->
  eval' r h1 b (Val (Some (wint b0), h1)) ->
  same_results [x] (fun R => exec' r h st R) (each x (fun r h R => run' r h body' R) (upto a0 b0) r h1).
Proof. exact (range_calc heap lit fun_addr fun_at extern abstract alloc prog K). Qed.

(** Descending ranges, [for x in a .. 0] with a >= 0: a-1, ..., 0, in order. *)
Theorem C20_range_down_partial : forall x t tb a body body' k k' st r h a0 h1,
  lower K k (XRange x t a (ELitInt tb 0) true body) = Some (st, k') -> lower_body K k body = Some (body', k') ->
  (x < k)%nat -> assigned_any x body = false ->
  eval' r h a (Val (Some (wint a0), h1)) -> is_int a0 -> 0 <= a0 ->
  same_results [x] (fun R => exec' r h st R) (each x (fun r h R => run' r h body' R) (downto a0 0) r h1).
Proof. exact (range_down heap lit fun_addr fun_at extern abstract alloc prog K). Qed.

(* ------------------------------------------------------------------------ C21 *)

(** C21, array literals: the literal is evaluated once and the body is run for every
    element, in order, with what the array has there at that time.  What is missing: the
    body must not change the length of the array. *)
Theorem C21_array_literal_partial : forall x t u e body body' k k' st r h h1 p len,
  lower K k (XArray x t (EArrayLit u e) body) = Some (st, k') -> lower_body K (S (S k)) body = Some (body', k') ->
  occurs k (XArray x t (EArrayLit u e) body) = false -> occurs (S k) (XArray x t (EArrayLit u e) body) = false ->
  eval' r h e (Val (Some p, h1)) -> in_heap_array heap p len -> load h1 p = wint len -> keeps_length' p len body' ->
  same_results [k; S k] (fun R => exec' r h st R) (each_element x p (fun r h R => run' r h body' R) (upto 0 len) r h1).
Proof. exact (array_lit heap lit fun_addr fun_at extern abstract alloc prog K). Qed.

(** Other array expressions.  What is missing: the expression must keep giving the same
    array without effects, for the code evaluates it twice in every round. *)
Theorem C21_array_expression_partial : forall x t a body body' k k' st r h p len I,
  lower K k (XArray x t a body) = Some (st, k') -> lower_body K (S (S k)) body = Some (body', k') ->
  (forall u e, a <> EArrayLit u e) -> occurs (S k) (XArray x t a body) = false ->
  in_heap_array heap p len -> same_array' x a p len body' I -> I r h ->
  same_results [S k] (fun R => exec' r h st R) (each_element x p (fun r h R => run' r h body' R) (upto 0 len) r h).
Proof. exact (array_expr heap lit fun_addr fun_at extern abstract alloc prog K). Qed.

(** In particular an array variable that the body does not assign. *)
Theorem C21_array_variable_partial : forall x t u y body body' k k' st r h p len,
  lower K k (XArray x t (EVar u y) body) = Some (st, k') -> lower_body K (S (S k)) body = Some (body', k') ->
  occurs (S k) (XArray x t (EVar u y) body) = false -> y <> x -> (y < k)%nat -> assigned_any y body = false ->
  r y = Some p -> load h p = wint len -> in_heap_array heap p len -> keeps_length' p len body' ->
  same_results [S k] (fun R => exec' r h st R) (each_element x p (fun r h R => run' r h body' R) (upto 0 len) r h).
Proof. exact (variable_array heap lit fun_addr fun_at extern abstract alloc prog K). Qed.
End Worlds.

Print Assumptions C17_checked_runs_return.
(** if x { return 1 } else { match e { case A(): return 2  case B(y): return 3 } } *)
Definition x_body : list xstmt :=
  [XDas 1 x_int (x_int_lit 5);
   XIf [(Some (EVar x_bool 2), [XReturn (Some (x_int_lit 1))]);
        (None, [XMatch (EVar x_shape 3) [(0, [], [XReturn (Some (x_int_lit 2))]); (1, [(4%nat, x_int)], [XReturn (Some (x_var 4))])]])]].
Example C17_example : return_checked TInteger x_body = true /\ (exists e, goes_list x_body e) /\
  exists p k1, lower_body x_consts 10 x_body = Some (p, k1).
Proof.
  split; [reflexivity|]. split; [|eexists; eexists; vm_compute; reflexivity].
  exists Returns. unfold x_body. eapply goes_on; [constructor|]. eapply goes_stop.
  eapply goes_branch; [left; reflexivity|]. eapply goes_stop. constructor.
Qed.
(** A body that the check refuses, and does end without a return. *)
Example C17_refused_example : last_terminates [XIf [(Some (EVar x_bool 2), [XReturn None])]] = false /\
  goes_list [XIf [(Some (EVar x_bool 2), [XReturn None])]] Falls.
Proof.
  split; [reflexivity|]. eapply goes_on; [|constructor]. apply goes_no_branch. intros b [H|[]]. discriminate.
Qed.
(** A run that meets a value of no case: memory 0 everywhere holds no tag (tags are
    odd); the body ends without a return, with the extra branch it is stuck. *)
Definition x_two : list xstmt := [XMatch (EVar x_shape 3) [(0, [], [XReturn None]); (1, [], [XReturn None])]].
Example C17_trap_example : last_terminates x_two = true /\
  exists p c, lower_body x_consts 10 x_two = Some (p, 11%nat) /\ lower_list x_consts (no_case x_consts) 10 x_two = Some (c, 11%nat) /\
    match x_list 60 3 (fun y => if Nat.eqb y 3 then Some 400 else None) (store (fun _ => 0) 400 (wint 2)) p with Val (ONormal, _, _) => True | _ => False end /\
    x_list 60 3 (fun y => if Nat.eqb y 3 then Some 400 else None) (store (fun _ => 0) 400 (wint 2)) c = Stuck.
Proof. split; [reflexivity|]. eexists. eexists. split; [reflexivity|]. split; [reflexivity|]. split; vm_compute; auto. Qed.

(* ------------------------------------------------------------------------ C18 *)

(** C18: an accepted match over an enum declared without errors has exactly one case for
    every member (the tags of its cases are those of the members, each once), and every
    case names a member and as many different variables as the member has values. *)
Theorem C18_accepted_matches_are_exhaustive : forall s0 ms s members cs,
  well_formed s0 -> declare_enum s0 ms = (s, members, []) -> check_match s members cs = [] ->
  Permutation (tags_of s cs) (map Some (List.seq 0 (List.length ms))) /\
  forall c, In c cs -> NoDup (ca_vars c) /\
    exists i, nth_error ms i = Some (ca_name c, List.length (ca_vars c)) /\ case_tag_of s c = Some i.
Proof. exact match_complete. Qed.
Print Assumptions C18_accepted_matches_are_exhaustive.

(** So whatever member built a value, exactly one case applies. *)
Theorem C18_one_case_applies : forall s0 ms s members cs i,
  well_formed s0 -> declare_enum s0 ms = (s, members, []) -> check_match s members cs = [] ->
  (i < List.length ms)%nat ->
  exists c, In c cs /\ case_tag_of s c = Some i /\ forall j, nth_error (tags_of s cs) j = Some (Some i) -> nth_error cs j = Some c.
Proof.
  intros s0 ms s members cs i Wf D C Hi. destruct (match_complete _ _ _ _ _ Wf D C) as [P _].
  assert (Nd : NoDup (tags_of s cs)).
  { eapply Permutation_NoDup; [apply Permutation_sym, P|]. apply FinFun.Injective_map_NoDup; [intros a b E; congruence|apply seq_NoDup]. }
  assert (I : In (Some i) (tags_of s cs)).
  { eapply Permutation_in; [apply Permutation_sym, P|]. apply in_map, in_seq. lia. }
  unfold tags_of in I. apply in_map_iff in I as [c [E I]]. exists c. split; [exact I|]. split; [exact E|].
  intros j Hj. apply In_nth_error in I as [j' Hj']. replace j with j'; [exact Hj'|].
  apply (proj1 (NoDup_nth_error _) Nd); [apply nth_error_Some; unfold tags_of; rewrite nth_error_map, Hj'; discriminate|].
  unfold tags_of at 1. rewrite nth_error_map, Hj'. cbn. rewrite E. symmetry. exact Hj.
Qed.
Print Assumptions C18_one_case_applies.

Definition x_members : list (string * nat) := [("None", 0%nat); ("Some", 1%nat); ("Pair", 2%nat)]%string.
Definition x_start : state := State [Fn KNormal 3] [("f", SFun 0); ("shape", SOther)]%string.
Example C18_example : well_formed x_start /\
  let '(s, members, es) := declare_enum x_start x_members in
  es = [] /\
  check_match s members [Case "Pair" ["a"; "b"]%string []; Case "None" [] []; Case "Some" ["a"%string] []] = [] /\
  check_match s members [Case "Pair" ["a"; "b"]%string []; Case "Some" ["a"%string] []] = [NotExhaustive] /\
  check_match s members [Case "Pair" ["a"]%string []; Case "None" [] []; Case "Some" ["a"%string] []] = [InvalidNumberArgs "Pair" 1 2] /\
  check_match s members [Case "Pair" ["a"; "b"]%string []; Case "Pair" ["a"; "b"]%string []; Case "Some" ["a"%string] []] = [Redeclared "Pair"].
Proof.
  split; [|vm_compute; auto]. intros x a. cbn. destruct (String.eqb x "f"); [intros E; inversion E; lia|].
  destruct (String.eqb x "shape"); discriminate.
Qed.

Print Assumptions C19_match_runs_its_case.
Print Assumptions C19_constructors_build_members.

(** match e { case A(): x1 = 1  case B(y, z): x1 = y + z } with B(7, 8) at 400 *)
Definition x_match : xstmt := XMatch (EVar x_shape 0)
  [(0, [], [x_assign 1 (x_int_lit 1)]); (1, [(2%nat, x_int); (3%nat, x_int)], [x_assign 1 (x_plus (x_var 2) (x_var 3))])].
Definition x_mem : memory := store (store (store (fun _ => 0) 400 (wint 1)) 408 (wint 7)) 416 (wint 8).
Definition x_env : nat -> option Z := fun y => if Nat.eqb y 0 then Some 400 else None.
Example C19_example : has_member x_heap x_mem 400 1 [wint 7; wint 8] /\ occurs 9 x_match = false /\
  exists st k', lower x_consts 9 x_match = Some (st, k') /\
    match x_exec 60 3 x_env x_mem st with Val (ONormal, r, _) => r 1%nat = Some (wint 15) | _ => False end.
Proof.
  split; [|split; [reflexivity|eexists; eexists; split; [reflexivity|vm_compute; reflexivity]]].
  split; [reflexivity|]. split; [reflexivity|]. intros [|[|i]] v E; cbn in E; [..|destruct i; discriminate]; inversion E; subst; vm_compute; auto.
Qed.

Print Assumptions C20_range_up_partial.
Print Assumptions C20_range_up_calculated_partial.
Print Assumptions C20_range_down_partial.

(** for x0 in 2 .. 5 { x1 = x1 * 10 + x0 } and for x0 in 3 .. 0 { ... } *)
Definition x_digits : list xstmt := [x_assign 1 (x_plus (EArith x_int Mul (x_var 1) (x_int_lit 10)) (x_var 0))].
Definition x_zero : nat -> option Z := fun y => if Nat.eqb y 1 then Some (wint 0) else None.
Definition x_value (n d : nat) (s : xstmt) (r : nat -> option Z) (h : memory) (y : nat) : option Z :=
  match lower x_consts 10 s with
  | Some (st, _) => match x_exec n d r h st with Val (ONormal, r, _) => option_map ival (r y) | _ => None end
  | None => None
  end.
Example C20_example :
  assigned_any 0 x_digits = false /\
  x_value 60 3 (XRange 0 x_int (x_int_lit 2) (x_int_lit 5) false x_digits) x_zero (fun _ => 0) 1 = Some 234 /\
  x_value 60 3 (XRange 0 x_int (x_int_lit 3) (x_int_lit 0) true x_digits) x_zero (fun _ => 0) 1 = Some 210 /\
  (exists body', lower_body x_consts 10 x_digits = Some (body', 10%nat) /\
     stable x_heap (fun _ => 0) (fun _ => 0) (fun _ => None) x_extern x_none "" [x_as_enum] 0 (x_int_lit 5) (wint 5) body' (fun _ _ => True)).
Proof.
  split; [reflexivity|]. split; [vm_compute; reflexivity|]. split; [vm_compute; reflexivity|].
  eexists. split; [reflexivity|]. split; [|auto]. intros r h _. apply finE_int.
Qed.

(** Not every decreasing range is visited: 3 .. 1 should run the body for 2 and 1, and
    the increasing range -3 .. 0 for -3, -2 and -1; neither runs it at all. *)
Theorem C20_ranges_refuted :
  downto 3 1 <> [] /\ x_value 60 3 (XRange 0 x_int (x_int_lit 3) (x_int_lit 1) false x_digits) x_zero (fun _ => 0) 1 = Some 0 /\
  upto (-3) 0 <> [] /\ x_value 60 3 (XRange 0 x_int (ENeg x_int (x_int_lit 3)) (x_int_lit 0) true x_digits) x_zero (fun _ => 0) 1 = Some 0.
Proof. split; [discriminate|]. split; [vm_compute; reflexivity|]. split; [discriminate|vm_compute; reflexivity]. Qed.
Print Assumptions C20_ranges_refuted.

(** The end of a range is evaluated before every round: with x2 = 3 at the start the
    range is 0, 1, 2, but the body below lowers x2 and the loop stops after two rounds. *)
Theorem C20_end_reevaluated_refuted :
  upto 0 3 = [0; 1; 2] /\
  x_value 60 3 (XRange 0 x_int (x_int_lit 0) (x_var 2) false
    [x_assign 1 (x_plus (x_var 1) (x_int_lit 1)); x_assign 2 (EArith x_int Sub (x_var 2) (x_int_lit 1))])
    (env_set x_zero 2 (wint 3)) (fun _ => 0) 1 = Some 2.
Proof. split; [reflexivity|vm_compute; reflexivity]. Qed.
Print Assumptions C20_end_reevaluated_refuted.

Print Assumptions C21_array_literal_partial.
Print Assumptions C21_array_expression_partial.
Print Assumptions C21_array_variable_partial.

(** The array [4, 5, 6] at 400; tick() returns it. *)
Definition x_array : memory := store (store (store (store (store (fun _ => 0) 400 (wint 3)) 408 (wint 4)) 416 (wint 5)) 424 (wint 6)) 800 (wint 0).
Definition x_arr_env : nat -> option Z := env_set x_zero 5 400.
Definition x_tick : expr := ECall x_ints x_ext "tick" [].
Example C21_example :
  in_heap_array x_heap 400 3 /\ load x_array 400 = wint 3 /\
  x_value 90 3 (XArray 0 x_int (EVar x_ints 5) x_digits) x_arr_env x_array 1 = Some 456 /\
  x_value 90 3 (XArray 0 x_int (EArrayLit x_ints x_tick) x_digits) x_zero x_array 1 = Some 456 /\
  (exists body', lower_body x_consts 12 x_digits = Some (body', 12%nat) /\
     keeps_length x_heap (fun _ => 0) (fun _ => 0) (fun _ => None) x_extern x_none "" [x_as_enum] 400 3 body').
Proof.
  split.
  { unfold in_heap_array, is_addr, is_int, int_min, int_max. split; [lia|]. split; [lia|]. split; [lia|]. split; [reflexivity|].
    intros i Hi. assert (C : i = 0 \/ i = 1 \/ i = 2) by lia. destruct C as [->|[->| ->]]; reflexivity. }
  split; [reflexivity|]. split; [vm_compute; reflexivity|]. split; [vm_compute; reflexivity|].
  eexists. split; [reflexivity|]. intros r h r1 h1 B F. apply finL_one in F. apply finS_as_var in F.
  destruct F as [[v [h2 [[_ [n [d F]]] E]]]|[[h2 [_ F]]|[E [_ [_ F]]]]]; [|discriminate|destruct E; discriminate].
  inversion E; subst. apply (calc_eval _ _ _ _ _ _ _ _ r r n d _ h h) in F; [|reflexivity|reflexivity].
  destruct F as [-> _]. exact B.
Qed.

(** An array expression other than a literal is evaluated again and again: tick() counts
    its calls; for three elements it is called seven times.  With a second array on every
    second call the loop would mix the two. *)
Theorem C21_expression_once_refuted :
  match lower x_consts 10 (XArray 0 x_int x_tick x_digits) with
  | Some (st, _) => match x_exec 90 3 x_zero x_array st with Val (ONormal, r, h) => option_map ival (r 1%nat) = Some 456 /\ ival (load h 800) = 7 | _ => False end
  | None => False
  end.
Proof. vm_compute. auto. Qed.
Print Assumptions C21_expression_once_refuted.
