(** Property C36: GC maps.  Statements use GenModel (the code) and RootSpec. *)
From Coq Require Import ZArith List Bool Lia String.
From Verif Require Import X86 GenModel LowerModel RootSpec RootFn.
Import ListNotations.
Open Scope string_scope.
Open Scope list_scope.
Open Scope Z_scope.

(* ------------------------------------------------------------------------ C36 *)

(** C36 (partial): in the code of a program, consider a function and any way through
    its body that reaches a call.  The map after that call, read as the collector
    reads it, lists of the words of the frame exactly the slots of the variables that
    are then in scope, have been assigned and hold objects.  (What it lists below the
    frame are arguments on the stack.)  Missing: functions in which, inside a block,
    an object is declared before another block, and variables that are assigned
    without having been declared; there the maps are wrong, see below.  Values pushed
    by save are in no map either. *)
Theorem C36_maps_partial : forall alloc fs s c s', gen_fns alloc fs s = Some (c, s') -> forall f, In f fs ->
  NoDup (map fst (f_params f)) -> shallow_list (body_list (f_body f)) ->
  declared_list (map fst (f_params f)) (body_list (f_body f)) ->
  exists c1 cf c2 s1 s2, c = c1 ++ cf ++ c2 /\ gen_fn alloc f s1 = Some (cf, s2) /\
  forall n A, reaches f n A -> exists m, nth_error (call_maps c cf) n = Some (Some m) /\
    forall k, k <= fn_frame f ->
      (In k m <-> exists x t, In (x, t) A /\ object t = true /\ fn_slot f x = 8 * k).
Proof. exact program_maps. Qed.
Print Assumptions C36_maps_partial.

Definition r_str := Ty TString 1.
Definition r_bool := Ty TBoolean 2.
Definition r_int := Ty TInteger 3.
Definition r_strings := Ty TArray 4.
Definition r_info := FnInfo false false false TNothing.
Definition r_g : stmt := SExpr (ECall (Ty TNothing 0) r_info "g" []).
Definition r_start : gst := Gst 0 [] [] [] [] 5 0 [].

(** fn f(c: bool, s: string) { if c { t := s  g() } else { n := 1  g() }  u := s  while c { g() } } *)
Definition r_fun : fundef := Fun "f" [(0%nat, r_bool); (1%nat, r_str)] (BBlock
  [SIf [(Some (EVar r_bool 0), [SDas 2 r_str (EVar r_str 1); r_g]);
        (None, [SDas 3 r_int (ELitInt r_int 1); r_g])];
   SDas 4 r_str (EVar r_str 1); SWhile (EVar r_bool 0) [r_g]]) TNothing false.
Example C36_example :
  match gen_fns "claralloc" [r_fun; r_fun] r_start with
  | Some (c, _) => call_maps c c = [Some [2; 3]; Some [2]; Some [2; 5]; Some [2; 3]; Some [2]; Some [2; 5]]
  | None => False
  end /\
  NoDup (map fst (f_params r_fun)) /\ shallow_list (body_list (f_body r_fun)) /\
  declared_list (map fst (f_params r_fun)) (body_list (f_body r_fun)) /\
  reaches r_fun 0 [(2%nat, r_str); (0%nat, r_bool); (1%nat, r_str)] /\
  reaches r_fun 2 [(4%nat, r_str); (0%nat, r_bool); (1%nat, r_str)] /\
  map (fn_slot r_fun) [0; 1; 2; 3; 4]%nat = [8; 16; 24; 32; 40] /\ fn_frame r_fun = 6.
Proof.
  split; [vm_compute; reflexivity|].
  split; [repeat constructor; intros H; repeat (destruct H as [H|H]; [discriminate|]); exact H|].
  split; [cbn; repeat split; intros; discriminate || reflexivity|]. split; [cbn; repeat split|].
  assert (G : forall n A, run n A r_g [(n, A)] (Some A)) by (intros n A; apply run_expr).
  assert (H1 : run_list 0 [(0%nat, r_bool); (1%nat, r_str)] [SDas 2 r_str (EVar r_str 1); r_g]
    [(0%nat, [(2%nat, r_str); (0%nat, r_bool); (1%nat, r_str)])] (Some [(2%nat, r_str); (0%nat, r_bool); (1%nat, r_str)])).
  { change [(0%nat, [(2%nat, r_str); (0%nat, r_bool); (1%nat, r_str)])]
      with ([] ++ [(0%nat, [(2%nat, r_str); (0%nat, r_bool); (1%nat, r_str)])] ++ []).
    eapply run_next; [apply run_das|]. eapply run_next; [apply G|apply run_end]. }
  assert (H2 : run_list 2 [(4%nat, r_str); (0%nat, r_bool); (1%nat, r_str)] [r_g]
    ([(2%nat, [(4%nat, r_str); (0%nat, r_bool); (1%nat, r_str)])] ++ []) (Some [(4%nat, r_str); (0%nat, r_bool); (1%nat, r_str)])).
  { eapply run_next; [apply G|apply run_end]. }
  split; [|split].
  - eexists _, _. split.
    + eapply run_next; [apply run_if; eapply (run_then _ _ _ _ _ _ (Some _)); exact H1|]. eapply run_next; [apply run_das|].
      eapply run_next; [apply run_while_end|apply run_end].
    + now left.
  - eexists _, _. split.
    + eapply run_next; [apply run_if; eapply (run_then _ _ _ _ _ _ (Some _)); exact H1|]. eapply run_next; [apply run_das|].
      eapply run_next; [eapply run_while_again; [exact H2|apply run_while_end]|apply run_end].
    + right. left. reflexivity.
  - vm_compute. auto.
Qed.

(** The statement fails without the condition on blocks, because gc.go:53-56
    (CloseScope) does not drop the scope it closes: the outer block is cut down to the
    length its inner block had.
    fn f(c: bool, d: bool, s: string) { if c { t := s  if d { } }  g() }: the map
    after g lists the slot of t, which is out of scope, and never assigned when c is
    false. *)
Definition r_leak : fundef := Fun "f" [(0%nat, r_bool); (1%nat, r_bool); (2%nat, r_str)] (BBlock
  [SIf [(Some (EVar r_bool 0), [SDas 3 r_str (EVar r_str 2); SIf [(Some (EVar r_bool 1), [])]])]; r_g]) TNothing false.
Theorem C36_nested_blocks_refuted :
  reaches r_leak 0 (f_params r_leak) /\ fn_slot r_leak 3 = 8 * 4 /\ fn_frame r_leak = 4 /\
  match gen_fns "claralloc" [r_leak] r_start with
  | Some (c, _) => call_maps c c = [Some [3; 4]]
  | None => False
  end /\
  declared_list (map fst (f_params r_leak)) (body_list (f_body r_leak)) /\
  forall x t, In (x, t) (f_params r_leak) -> fn_slot r_leak x <> 8 * 4.
Proof.
  split; [|split; [vm_compute; reflexivity|split; [vm_compute; reflexivity|split; [vm_compute; reflexivity|split; [cbn; repeat split|]]]]].
  - eexists _, _. split.
    + eapply run_next; [apply run_if; apply run_skip; apply run_none|].
      eapply run_next; [apply run_expr|apply run_end].
    + now left.
  - intros x t [H|[H|[H|[]]]]; injection H as <- <-; vm_compute; discriminate.
Qed.
Print Assumptions C36_nested_blocks_refuted.

(** The loop variable of a for statement over an array is assigned without a
    declaration (semantic.go:476-489 makes an opAs node), so it is in no map:
    fn f(a: []string) { for x in a { g() } }. *)
Definition r_consts : consts := Consts r_int r_bool (Ty TArray 5) (Ty TStruct 6) "asEnum" (FnInfo false false false TStruct).
Definition r_loop : fundef := Fun "f" [(0%nat, r_strings)] (BBlock
  (lower_array r_consts 3 2 1 r_str (EVar r_strings 0) [r_g])) TNothing false.
Theorem C36_loop_variable_refuted :
  reaches r_loop 0 [(1%nat, r_str); (2%nat, r_int); (0%nat, r_strings)] /\
  object r_str = true /\ fn_slot r_loop 1 = 8 * 3 /\
  match gen_fns "claralloc" [r_loop] r_start with
  | Some (c, _) => call_maps c c = [Some [1]]
  | None => False
  end /\
  shallow_list (body_list (f_body r_loop)).
Proof.
  split; [|split; [reflexivity|split; [vm_compute; reflexivity|split; [vm_compute; reflexivity|cbn; repeat split; intros; discriminate]]]].
  eexists _, _. split.
  - eapply run_next; [apply run_das|]. eapply run_next; [|apply run_end].
    eapply run_while_again; [|apply run_while_end].
    eapply run_next; [apply run_as|]. eapply run_next; [apply run_expr|]. eapply run_next; [apply run_as|apply run_end].
  - now left.
Qed.
Print Assumptions C36_loop_variable_refuted.

(** Values pushed by save are in no map: in fn f() int = h()[g()] the array that h
    returned is only on the stack while g runs, and the map there is empty. *)
Definition r_saved : fundef := Fun "f" [] (BExpr
  (EIndex r_int (ECall (Ty TArray 5) (FnInfo false false false TArray) "h" [])
                (ECall r_int (FnInfo false false false TInteger) "g" []))) TInteger false.
Theorem C36_saved_values_refuted :
  match gen_fns "claralloc" [r_saved] r_start with
  | Some (c, _) => exists c1 c2, c = c1 ++
      [EIns call [OFn "h"]; EAddr LNoGc; EIns pushq [OReg rax];
       EIns subq [OImm 8; OReg rsp]; EIns call [OFn "g"]; EAddr LNoGc; EIns addq [OImm 8; OReg rsp]] ++ c2
  | None => False
  end.
Proof.
  vm_compute. eexists [_; _], _. reflexivity.
Qed.
Print Assumptions C36_saved_values_refuted.
