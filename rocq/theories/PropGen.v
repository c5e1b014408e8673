(** Properties C24-C31, C33 and C35: generated code.  A [world] (GenWorld.v) is a
    generated file in memory with its surroundings; [loaded] says that it is loaded as
    it should be; that any generated file can be loaded so is [file_loaded]
    (GenSample.v).  [meaning], [does] and [returns] (GenPure.v) say what expressions and
    functions over ints and bools mean; [ev] is the interpreter of GenSpec.v. *)
From Coq Require Import ZArith List Bool String Lia.
From Verif Require Import Ints X86 GenModel GenProgram GenSpec GenMem GenStatic GenSlots GenPure GenExec GenLabels GenLink GenCorrect GenWorld GenProps GenStack GenFrame GenText GenSample.
Import ListNotations.
Open Scope Z_scope.

(* ------------------------------------------------------------------- C24 *)

(** An expression over ints and bools whose meaning is the number [z]: its code ends,
    rax has the number, the caller's part of the stack and the variables are as before.
    If the expression divides by zero the processor raises a divide error.  Partial: the
    meaning takes shift counts modulo 64. *)
Theorem C24_integer_arithmetic_partial :
  forall w, loaded w ->
  forall d slot T B s c s' n r h rs m fl rho e,
  plain_expr e = true -> gen_expr slot e false s = Some (c, s') -> code_at (w_code w) n c ->
  inside w slot T B (g_sp s) [] r h rs m -> stack_left w d (pushes e) rs -> holds rho r ->
  (forall z, meaning rho e = PVal (VInt z) ->
     exists rs' m' fl', runs w (MState n (rs, m, fl)) (MState (n + List.length c) (rs', m', fl')) /\
       rs' rax = word (2 * z + 1) /\ stack_kept w (rs rsp) m m' /\ inside w slot T B (g_sp s) [] r h rs' m') /\
  (meaning rho e = PDivZero ->
     exists st', runs w (MState n (rs, m, fl)) st' /\ at_division_by_zero (w_code w) st').
Proof.
  intros w Hw d slot T B s c s' n r h rs m fl rho e H1 H2 H3 H4 H5 H6.
  pose proof (plain_code w Hw d slot T B s c s' n r h rs m fl rho e H1 H2 H3 H4 H5 H6) as H.
  split; [intros z E|intros E]; rewrite E in H; exact H.
Qed.
Print Assumptions C24_integer_arithmetic_partial.

(** mix(7, -3) in the sample program. *)
Definition ab (a b : Z) (x : nat) : option pval := if Nat.eqb x 0 then Some (VInt a) else if Nat.eqb x 1 then Some (VInt b) else None.
Lemma ab_holds a b : is_int a -> is_int b -> holds (ab a b) (two_vars (wint a) (wint b)).
Proof.
  intros Ha Hb x u. unfold ab, two_vars. destruct (Nat.eqb x 0); [|destruct (Nat.eqb x 1); [|discriminate]]; intros E; injection E as <-; split; auto.
Qed.
Definition body_state (s : gst) : gst := Gst 2 [] [] [] [] 0 (g_lab s) [].
Example C24_example :
  meaning (ab 7 (-3)) mix = PVal (VInt 3) /\ meaning (ab 4 4) mix = PDivZero /\
  exists rs' m' fl', runs sample (MState (sample_fn "clara_mix.int.int" + 4) (body_regs, body_mem zero (wint 7) (wint (-3)), None))
    (MState (sample_fn "clara_mix.int.int" + 4 + List.length (match gen_expr two_slots mix false (body_state start) with Some (c, _) => c | None => [] end)) (rs', m', fl')) /\
    rs' rax = word (2 * 3 + 1).
Proof.
  split; [vm_compute; reflexivity|]. split; [vm_compute; reflexivity|].
  destruct (gen_expr two_slots mix false (body_state start)) as [[c s']|] eqn:E; [|vm_compute in E; discriminate].
  destruct (C24_integer_arithmetic_partial sample sample_loaded 1 two_slots 2 131040 (body_state start) c s' (sample_fn "clara_mix.int.int" + 4)
    (two_vars (wint 7) (wint (-3))) zero body_regs (body_mem zero (wint 7) (wint (-3))) None (ab 7 (-3)) mix) as [H _].
  - reflexivity.
  - exact E.
  - apply code_is. vm_compute in E. injection E as <- _. vm_compute. reflexivity.
  - apply body_inside; vm_compute; split; congruence.
  - vm_compute. discriminate.
  - apply ab_holds; vm_compute; split; discriminate.
  - destruct (H 3 eq_refl) as (rs' & m' & fl' & H1 & H2 & _). exists rs', m', fl'. split; [exact H1|exact H2].
Qed.

(** Without "modulo 64" it fails: 1 << 64 is 1, not 0. *)
Theorem C24_shift_count_refuted :
  exists w fd n rs m fl q rs' m' fl', loaded w /\ In fd (w_prog w) /\
    f_params fd = [(0%nat, t_int); (1%nat, t_int)] /\ f_body fd = BExpr (EShift t_int BLeft (EVar t_int 0) (EVar t_int 1)) /\
    nth_error (w_code w) n = Some (EFn (f_name fd)) /\ rs rdi = wint 1 /\ rs rsi = wint 64 /\
    w_place w (word (load m (rs rsp) + 8)) = Some q /\
    runs w (MState n (rs, m, fl)) (MState q (rs', m', fl')) /\
    rs' rax = wint 1 /\ wint 1 <> wint (wrap (1 * 2 ^ 64)).
Proof.
  destruct (plain_fun sample sample_loaded f_shl [VInt 1; VInt 64] (Some (Some (VInt 1))) zero (sample_fn "clara_shl.int.int")
    (entry_regs (wint 1) (wint 64)) (entry_mem zero) None 4) as (rs' & m' & fl' & H1 & H2 & _).
  - cbn. tauto.
  - vm_compute. reflexivity.
  - intros u [<-|[<-|[]]]; vm_compute; split; discriminate.
  - intros k u r Hk Hr. destruct k as [|[|k]]; cbn in Hk, Hr; [injection Hk as <-; injection Hr as <-; reflexivity|injection Hk as <-; injection Hr as <-; reflexivity|].
    destruct k; discriminate.
  - vm_compute. split; congruence.
  - reflexivity.
  - vm_compute. split; discriminate.
  - intros a Ha. apply sample_heap_ok in Ha. cbn in Ha. unfold entry_mem, store.
    destruct (Z.leb_spec 131048 a); cbn [andb]; [|reflexivity]. destruct (Z.ltb_spec a (131048 + 8)); [lia|reflexivity].
  - vm_compute. reflexivity.
  - eapply R_expr; [reflexivity|vm_compute; reflexivity].
  - exists sample, f_shl, (sample_fn "clara_shl.int.int"), (entry_regs (wint 1) (wint 64)), (entry_mem zero), None, 4%nat, rs', m', fl'.
    split; [exact sample_loaded|]. split; [cbn; tauto|]. split; [reflexivity|]. split; [reflexivity|]. split; [vm_compute; reflexivity|].
    split; [reflexivity|]. split; [reflexivity|]. split; [vm_compute; reflexivity|]. split; [exact H1|]. split; [exact H2|vm_compute; discriminate].
Qed.
Print Assumptions C24_shift_count_refuted.

(* ------------------------------------------------------------------- C25 *)

(** A boolean expression: rax is 1 if it means true and 0 if it means false. *)
Theorem C25_comparisons_and_booleans :
  forall w, loaded w ->
  forall d slot T B s c s' n r h rs m fl rho e,
  plain_expr e = true -> gen_expr slot e false s = Some (c, s') -> code_at (w_code w) n c ->
  inside w slot T B (g_sp s) [] r h rs m -> stack_left w d (pushes e) rs -> holds rho r ->
  forall x, meaning rho e = PVal (VBool x) ->
  exists rs' m' fl', runs w (MState n (rs, m, fl)) (MState (n + List.length c) (rs', m', fl')) /\
    rs' rax = (if x then 1 else 0) /\ stack_kept w (rs rsp) m m' /\ inside w slot T B (g_sp s) [] r h rs' m'.
Proof.
  intros w Hw d slot T B s c s' n r h rs m fl rho e H1 H2 H3 H4 H5 H6 x E.
  pose proof (plain_code w Hw d slot T B s c s' n r h rs m fl rho e H1 H2 H3 H4 H5 H6) as H.
  rewrite E in H. exact H.
Qed.
Print Assumptions C25_comparisons_and_booleans.

(** There is no short circuit: the right operand is evaluated whatever the left one is, so
    `false and 1 / 0 == 1` and `true or 1 / 0 == 1` end in the division. *)
Theorem C25_short_circuit_refuted :
  forall w, loaded w ->
  forall d slot T B s c s' n r h rs m fl rho t op l e,
  plain_expr (ELogic t op l e) = true -> gen_expr slot (ELogic t op l e) false s = Some (c, s') -> code_at (w_code w) n c ->
  inside w slot T B (g_sp s) [] r h rs m -> stack_left w d (pushes (ELogic t op l e)) rs -> holds rho r ->
  forall x, meaning rho l = PVal (VBool x) -> meaning rho e = PDivZero ->
  exists st', runs w (MState n (rs, m, fl)) st' /\ at_division_by_zero (w_code w) st'.
Proof.
  intros w Hw d slot T B s c s' n r h rs m fl rho t op l e H1 H2 H3 H4 H5 H6 x El Ee.
  pose proof (plain_code w Hw d slot T B s c s' n r h rs m fl rho _ H1 H2 H3 H4 H5 H6) as H.
  cbn [meaning] in H. rewrite El, Ee in H. exact H.
Qed.
Print Assumptions C25_short_circuit_refuted.
Definition guarded (op : logic_op) (b : bool) : expr :=
  ELogic t_bool op (ELitBool t_bool b) (ECmp t_bool Eq (EArith t_int Div (i 1) (v 0)) (i 1)).
Example C25_short_circuit_example : forall op b,
  plain_expr (guarded op b) = true /\ meaning (ab 0 0) (ELitBool t_bool b) = PVal (VBool b) /\
  meaning (ab 0 0) (ECmp t_bool Eq (EArith t_int Div (i 1) (v 0)) (i 1)) = PDivZero.
Proof. intros [] []; repeat split. Qed.

Example C25_example :
  meaning (ab int_min int_max) test = PVal (VBool true) /\ meaning (ab 4 4) test = PVal (VBool false) /\
  exists rs' m' fl', runs sample (MState (sample_fn "clara_test.int.int" + 4) (body_regs, body_mem zero (wint int_min) (wint int_max), None))
    (MState (sample_fn "clara_test.int.int" + 4 + List.length (match gen_expr two_slots test false (body_state start) with Some (c, _) => c | None => [] end)) (rs', m', fl')) /\
    rs' rax = 1.
Proof.
  split; [vm_compute; reflexivity|]. split; [vm_compute; reflexivity|].
  destruct (gen_expr two_slots test false (body_state start)) as [[c s']|] eqn:E; [|vm_compute in E; discriminate].
  destruct (C25_comparisons_and_booleans sample sample_loaded 1 two_slots 2 131040 (body_state start) c s' (sample_fn "clara_test.int.int" + 4)
    (two_vars (wint int_min) (wint int_max)) zero body_regs (body_mem zero (wint int_min) (wint int_max)) None (ab int_min int_max) test) with (x := true)
    as (rs' & m' & fl' & H1 & H2 & _).
  - reflexivity.
  - exact E.
  - apply code_is. vm_compute in E. injection E as <- _. vm_compute. reflexivity.
  - apply body_inside; vm_compute; split; congruence.
  - vm_compute. discriminate.
  - apply ab_holds; vm_compute; split; discriminate.
  - vm_compute. reflexivity.
  - exists rs', m', fl'. split; [exact H1|exact H2].
Qed.

(* ------------------------------------------------------------------- C26 *)

(** The code of any expression, anywhere in a program, run from any state with stack
    enough: if it comes to its end, the stack and frame pointers are as they were and so
    is the memory from the stack pointer up to any [hi] that called functions respect.
    Calls count as one step and may do anything else (see [ex_step], [fn_step]). *)
Theorem C26_expression_code_keeps_frame :
  forall unq alloc ioob entry ts full P sf,
  gen_program unq alloc ioob entry ts full start = Some (P, sf) -> NoDup (map_labels ts) ->
  forall slot e ta s c s' n, gen_expr slot e ta s = Some (c, s') -> code_at P n c -> nth_error P (n + List.length c) <> Some (ELabel LIoob) ->
  forall laddr mext mskips addr place hi st st',
  pc st = n -> 8 * Z.of_nat (List.length c) <= sp_of st < 2 ^ 64 ->
  ex_run laddr mext mskips addr place P n (n + List.length c) hi st st' -> pc st' = (n + List.length c)%nat ->
  sp_of st' = sp_of st /\ fp_of st' = fp_of st /\ forall a, sp_of st <= a < hi -> mem_of st' a = mem_of st a.
Proof. exact expr_frame. Qed.
Print Assumptions C26_expression_code_keeps_frame.

(** Together with the functions called: whatever an expression evaluates to, the whole
    run, calls included, ends behind its code with stack, frame pointer, variables and
    passed arguments in place. *)
Theorem C26_evaluation_keeps_frame :
  forall w, loaded w ->
  forall N d slot T B us r h s c s' n rs m fl e v h',
  gen_expr slot e false s = Some (c, s') -> code_at (w_code w) n c -> lits_in w s' ->
  safe (List.length us) e = true -> List.length us = regs_in_use s ->
  inside w slot T B (g_sp s) us r h rs m -> stack_left w d (pushes e) rs ->
  ev w N d r h e = Val (v, h') ->
  exists rs' m' fl', runs w (MState n (rs, m, fl)) (MState (n + List.length c) (rs', m', fl')) /\ result_in v rs' /\
    rs' rsp = rs rsp /\ rs' rbp = rs rbp /\ stack_kept w (rs rsp) m m' /\ inside w slot T B (g_sp s) us r h' rs' m'.
Proof.
  intros w Hw N d slot T B us r h s c s' n rs m fl e v h' H1 H2 H3 H4 H5 H6 H7 H8.
  pose proof (expr_code w Hw N d slot T B us r h s c s' n rs m fl e H1 H2 H3 H4 H5 H6 H7) as H. rewrite H8 in H.
  destruct H as (st' & R & rs' & m' & fl' & -> & H). exists rs', m', fl'. split; [exact R|exact H].
Qed.
Print Assumptions C26_evaluation_keeps_frame.

(** A run of expression code without calls, as a function. *)
Fixpoint own_run (w : world) (n n' k : nat) (st : mstate) : option mstate :=
  match k with
  | O => Some st
  | S k =>
    if (Nat.leb n (pc st) && Nat.ltb (pc st) n')%bool then
      match nth_error (w_code w) (pc st) with
      | Some e => if leaves e then None else match one_step w st with Some st => own_run w n n' k st | None => None end
      | None => None
      end
    else Some st
  end.
Lemma ex_app laddr mext mskips addr place P n n' hi s1 s2 : ex_run laddr mext mskips addr place P n n' hi s1 s2 ->
  forall s0, ex_step laddr mext mskips addr place P n n' hi s0 s1 -> ex_run laddr mext mskips addr place P n n' hi s0 s2.
Proof.
  induction 1 as [s|s a b _ IH ST]; intros s0 H; [eapply ex_more; [apply ex_refl|exact H]|]. eapply ex_more; [apply IH; exact H|exact ST].
Qed.
Lemma own_run_ex w n n' hi k : forall st st', own_run w n n' k st = Some st' ->
  ex_run (w_laddr w) (w_ext w) (w_skips w) (w_addr w) (w_place w) (w_code w) n n' hi st st'.
Proof.
  induction k as [|k IH]; intros st st' H; cbn [own_run] in H; [injection H as <-; apply ex_refl|].
  destruct (Nat.leb_spec n (pc st)), (Nat.ltb_spec (pc st) n'); cbn [andb] in H; try (injection H as <-; apply ex_refl).
  destruct (nth_error (w_code w) (pc st)) as [e|] eqn:E; [|discriminate]. destruct (leaves e) eqn:L; [discriminate|].
  destruct (one_step w st) as [s1|] eqn:S1; [|discriminate]. eapply ex_app; [apply IH; exact H|]. split.
  - eapply fn_own; [split; eassumption|exact E|exact L|exact S1].
  - intros ops Ho. rewrite E in Ho. injection Ho as ->. discriminate L.
Qed.
Lemma own_run_check w n n' hi k st sp x a v :
  match own_run w n n' k st with
  | Some s => (pc s =? n')%nat && (sp_of s =? sp) && (fst (fst (mcore s)) rax =? x) && negb (load (mem_of s) a =? v)
  | None => false end = true ->
  exists st', ex_run (w_laddr w) (w_ext w) (w_skips w) (w_addr w) (w_place w) (w_code w) n n' hi st st' /\
    pc st' = n' /\ sp_of st' = sp /\ fst (fst (mcore st')) rax = x /\ load (mem_of st') a <> v.
Proof.
  intros F. destruct (own_run w n n' k st) as [st'|] eqn:E; [|discriminate]. exists st'. split; [exact (own_run_ex w n n' hi k st st' E)|].
  apply andb_prop in F as [F F4]. apply andb_prop in F as [F F3]. apply andb_prop in F as [F1 F2].
  apply Nat.eqb_eq in F1. apply Z.eqb_eq in F2, F3. apply negb_true_iff, Z.eqb_neq in F4. auto.
Qed.
(** mix(7, -3) again; the word below the stack pointer has changed: something was pushed. *)
Definition mix_start : nat := sample_fn "clara_mix.int.int" + 4.
Definition mix_code : list event := match gen_expr two_slots mix false (body_state start) with Some (c, _) => c | None => [] end.
Example C26_example :
  exists st', ex_run (w_laddr sample) (w_ext sample) (w_skips sample) (w_addr sample) (w_place sample) (w_code sample)
    mix_start (mix_start + List.length mix_code)
    131072 (MState mix_start (body_regs, body_mem zero (wint 7) (wint (-3)), None)) st' /\
  pc st' = (mix_start + List.length mix_code)%nat /\
  sp_of st' = 131024 /\ fst (fst (mcore st')) rax = wint 3 /\ load (mem_of st') 131016 <> 0.
Proof.
  apply (own_run_check sample mix_start (mix_start + List.length mix_code) 131072 100
    (MState mix_start (body_regs, body_mem zero (wint 7) (wint (-3)), None)) 131024 (wint 3) 131016 0). vm_compute. reflexivity.
Qed.

(* ------------------------------------------------------------------- C27 *)

(** A call of a function of the program with arguments that evaluate to [vs], left to
    right: the run reaches the body of the function with the i-th argument in the slot of
    the i-th parameter.  Partial: [safe_args] demands that an argument after the second
    does not divide and an argument after the third does not shift, at a place where
    earlier arguments are already in registers. *)
Theorem C27_arguments_arrive_partial :
  forall w, loaded w ->
  forall N d slot T B us r h s c s' n rs m fl t fi f args fd vs h2,
  gen_expr slot (ECall t fi f args) false s = Some (c, s') -> code_at (w_code w) n c -> lits_in w s' ->
  safe_args 0 args = true -> List.length us = regs_in_use s ->
  inside w slot T B (g_sp s) us r h rs m -> stack_left w (S d) (7 + pushes_args args) rs ->
  fi_external fi = false -> find_fun (w_prog w) f = Some fd -> ev_args w N (S d) r h args = Val (vs, h2) ->
  exists st', runs w (MState n (rs, m, fl)) st' /\ in_body w fd vs st'.
Proof. exact call_code_args. Qed.
Print Assumptions C27_arguments_arrive_partial.

(** nested(6, 2) calls third(6 / 2, third(1, 2, 2, 4), fact(6), 6 << 2). *)
Definition nested_values : list value := [Some (wint 3); Some (wint 2); Some (wint 720); Some (wint 24)].
Example C27_example :
  exists st', runs sample (MState (sample_fn "clara_nested.int.int" + 4) (body_regs, body_mem zero (wint 6) (wint 2), None)) st' /\
    in_body sample f_third nested_values st'.
Proof.
  destruct (gen_expr two_slots nested false (body_state start)) as [[c s']|] eqn:E; [|vm_compute in E; discriminate].
  apply (C27_arguments_arrive_partial sample sample_loaded 60 20 two_slots 2 131040 [] (two_vars (wint 6) (wint 2)) zero (body_state start) c s'
    (sample_fn "clara_nested.int.int" + 4) body_regs (body_mem zero (wint 6) (wint 2)) None t_int direct "clara_third.int.int.int.int" nested_args f_third nested_values zero).
  - exact E.
  - apply code_is. vm_compute in E. injection E as <- _. vm_compute. reflexivity.
  - intros k x Hk. vm_compute in E. injection E as _ <-. destruct k; discriminate Hk.
  - reflexivity.
  - reflexivity.
  - apply body_inside; vm_compute; split; congruence.
  - vm_compute. discriminate.
  - reflexivity.
  - reflexivity.
  - vm_compute. reflexivity.
Qed.

(** Without the restriction it fails: in third(1, 2, 3, 8 / 2) the division destroys rdx,
    which already holds the third argument. *)
Theorem C27_refuted :
  exists w n rs m fl k rs' m' fl', loaded w /\
    f_body f_bad = BExpr (ECall t_int direct (f_name f_third) [i 1; i 2; i 3; EArith t_int Div (i 8) (i 2)]) /\
    nth_error (w_code w) n = Some (EFn (f_name f_bad)) /\
    nth_error (w_code w) k = Some (EFn (f_name f_third)) /\
    runs w (MState n (rs, m, fl)) (MState (k + 2 + List.length (f_params f_third)) (rs', m', fl')) /\
    nth_error (f_params f_third) 2 = Some (2%nat, t_int) /\ load m' (rs' rbp - 8 * 3) <> wint 3.
Proof.
  assert (F : match run_for sample 37 (MState (sample_fn "clara_bad") (entry_regs 0 0, entry_mem zero, None)) with
    | Some (MState p (rs, m, _)) => (p =? sample_fn "clara_third.int.int.int.int" + 6)%nat && negb (load m (rs rbp - 8 * 3) =? wint 3)
    | None => false end = true) by (vm_compute; reflexivity).
  destruct (run_for sample 37 _) as [[p [[rs' m'] fl']]|] eqn:E; [|discriminate].
  apply andb_prop in F as [F1 F2]. apply Nat.eqb_eq in F1. apply negb_true_iff, Z.eqb_neq in F2. subst p.
  apply run_for_runs in E.
  exists sample, (sample_fn "clara_bad"), (entry_regs 0 0), (entry_mem zero), None, (sample_fn "clara_third.int.int.int.int"), rs', m', fl'.
  split; [exact sample_loaded|]. split; [reflexivity|]. split; [vm_compute; reflexivity|]. split; [vm_compute; reflexivity|].
  split; [|split; [reflexivity|exact F2]]. cbn [f_third f_params List.length]. replace (sample_fn "clara_third.int.int.int.int" + 2 + 4)%nat with (sample_fn "clara_third.int.int.int.int" + 6)%nat by lia.
  exact E.
Qed.
Print Assumptions C27_refuted.

(* ------------------------------------------------------------------- C28 *)

(** Any function of any program, called on a stack that is aligned as the ABI demands (8
    modulo 16 at the entry), along any execution of its code: the stack pointer is a
    multiple of 16 at every call, and at every exit it is where it was at the entry (at
    the exit of a function that returns over the GC word the return address has been
    popped).  [fn_step] demands of what is called that it returns with the stack pointer
    it was called with, which is what the exits here provide. *)
Theorem C28_calls_aligned :
  forall unq alloc ioob entry ts full P sf fd,
  gen_program unq alloc ioob entry ts full start = Some (P, sf) ->
  NoDup (map f_name full ++ routine_names) -> NoDup (map_labels ts) -> In fd full ->
  exists n n', find_fn P (f_name fd) = Some n /\
  forall laddr mext mskips addr place rs0 m fl s' rs' m' fl' e,
    fn_run laddr mext mskips addr place P n n' (MState n (rs0, m, fl)) s' -> mcore s' = (rs', m', fl') -> (n <= pc s' < n')%nat ->
    nth_error P (pc s') = Some e ->
    match e with
    | EIns call _ => rs0 rsp mod 16 = 8 -> rs' rsp mod 16 = 0
    | EIns ret _ => rs' rsp = word (rs0 rsp)
    | EIns jmp [OMem _] => rs' rsp = word (rs0 rsp + 8)
    | _ => True
    end.
Proof.
  intros unq alloc ioob entry ts full P sf fd H1 H2 H3 H4.
  destruct (program_stack unq alloc ioob entry ts full P sf fd H1 H2 H3 H4) as (n & n' & F & K). exists n, n'. split; [exact F|].
  intros laddr mext mskips addr place rs0 m fl s' rs' m' fl' e A1 A2 A3 A4.
  pose proof (K laddr mext mskips addr place rs0 m fl s' rs' m' fl' e A1 A2 A3 A4) as G. destruct e as [[] o| | | | | | |]; try exact I; exact G.
Qed.
Print Assumptions C28_calls_aligned.

Lemma ex_fn laddr mext mskips addr place P n n' hi s s' : ex_run laddr mext mskips addr place P n n' hi s s' -> fn_run laddr mext mskips addr place P n n' s s'.
Proof. induction 1 as [|s a b _ IH ST]; [constructor|]. eapply fn_more; [exact IH|apply ST]. Qed.
(** nested(6, 2) comes to its first call, that of third as an argument of third, with one
    register saved and the stack made even. *)
Lemma own_run_at w n n' k st (e : event) f : match own_run w n n' k st with
  | Some s => match nth_error (w_code w) (pc s) with Some (EIns call [OFn g]) => String.eqb f g | _ => false end && (fst (fst (mcore s)) rsp mod 16 =? 0)
  | None => false end = true ->
  exists st', fn_run (w_laddr w) (w_ext w) (w_skips w) (w_addr w) (w_place w) (w_code w) n n' st st' /\
    nth_error (w_code w) (pc st') = Some (EIns call [OFn f]) /\ fst (fst (mcore st')) rsp mod 16 = 0.
Proof.
  intros F. destruct (own_run w n n' k st) as [st'|] eqn:E; [|discriminate]. exists st'. split; [eapply ex_fn, (own_run_ex w n n' 0 k st st' E)|].
  apply andb_prop in F as [F1 F2]. apply Z.eqb_eq in F2. split; [|exact F2].
  destruct (nth_error (w_code w) (pc st')) as [[[] [|[] []]| | | | | | |]|]; try discriminate. apply String.eqb_eq in F1. now subst.
Qed.
Example C28_example :
  In f_nested sample_full /\ entry_regs (wint 6) (wint 2) rsp mod 16 = 8 /\
  exists st', fn_run (w_laddr sample) (w_ext sample) (w_skips sample) (w_addr sample) (w_place sample) (w_code sample)
    (sample_fn "clara_nested.int.int") (sample_fn "clara_bad")
    (MState (sample_fn "clara_nested.int.int") (entry_regs (wint 6) (wint 2), entry_mem zero, None)) st' /\
    nth_error (w_code sample) (pc st') = Some (EIns call [OFn "clara_third.int.int.int.int"]) /\ fst (fst (mcore st')) rsp mod 16 = 0.
Proof.
  split; [cbn; tauto|]. split; [reflexivity|].
  apply (own_run_at sample (sample_fn "clara_nested.int.int") (sample_fn "clara_bad") 32
    (MState (sample_fn "clara_nested.int.int") (entry_regs (wint 6) (wint 2), entry_mem zero, None)) EFlush). vm_compute. reflexivity.
Qed.

(* ------------------------------------------------------------------- C29 *)

(** An index within bounds: the element is read ... *)
Theorem C29_index_inside :
  forall w, loaded w ->
  forall N d slot T B us r h s c s' n rs m fl t a i p h1 iw h2,
  gen_expr slot (EIndex t a i) false s = Some (c, s') -> code_at (w_code w) n c -> lits_in w s' ->
  safe (List.length us) (EIndex t a i) = true -> List.length us = regs_in_use s ->
  inside w slot T B (g_sp s) us r h rs m -> stack_left w d (pushes (EIndex t a i)) rs ->
  ev w N d r h a = Val (Some p, h1) -> ev w N d r h1 i = Val (Some iw, h2) ->
  ok8 (w_heap w) p = true -> 0 <= ival iw < ival (load h2 p) -> ok8 (w_heap w) (elem p (ival iw)) = true ->
  exists rs' m' fl', runs w (MState n (rs, m, fl)) (MState (n + List.length c) (rs', m', fl')) /\
    rs' rax = load h2 (elem p (ival iw)) /\ stack_kept w (rs rsp) m m' /\ inside w slot T B (g_sp s) us r h2 rs' m'.
Proof. exact index_inside. Qed.
Print Assumptions C29_index_inside.
(** ... or its address is taken ... *)
Theorem C29_index_address :
  forall w, loaded w ->
  forall N d slot T B us r h s c s' n rs m fl t a i p h1 iw h2,
  gen_expr slot (EIndex t a i) true s = Some (c, s') -> code_at (w_code w) n c -> lits_in w s' ->
  safe (List.length us) (EIndex t a i) = true -> List.length us = regs_in_use s ->
  inside w slot T B (g_sp s) us r h rs m -> stack_left w d (pushes (EIndex t a i)) rs ->
  ev w N d r h a = Val (Some p, h1) -> ev w N d r h1 i = Val (Some iw, h2) ->
  ok8 (w_heap w) p = true -> 0 <= ival iw < ival (load h2 p) ->
  exists rs' m' fl', runs w (MState n (rs, m, fl)) (MState (n + List.length c) (rs', m', fl')) /\
    rs' rax = elem p (ival iw) /\ stack_kept w (rs rsp) m m' /\ agree (w_heap w) m' h2.
Proof. exact index_address. Qed.
Print Assumptions C29_index_address.
(** ... and any other index, negative or too large, ends at the call of the function that
    reports it, with index and length as arguments, on an aligned stack and with the
    programs's memory as it was. *)
Theorem C29_index_outside :
  forall w, loaded w ->
  forall N d slot T B us r h s c s' n rs m fl t a i p h1 iw h2 ta ioob,
  gen_expr slot (EIndex t a i) ta s = Some (c, s') -> code_at (w_code w) n c -> lits_in w s' ->
  safe (List.length us) (EIndex t a i) = true -> List.length us = regs_in_use s ->
  inside w slot T B (g_sp s) us r h rs m -> stack_left w d (pushes (EIndex t a i)) rs ->
  ev w N d r h a = Val (Some p, h1) -> ev w N d r h1 i = Val (Some iw, h2) -> is_addr p ->
  ok8 (w_heap w) p = true -> 0 <= ival (load h2 p) -> ~ (0 <= ival iw < ival (load h2 p)) -> reports_bad_index w ioob ->
  exists q rs' m' fl', runs w (MState n (rs, m, fl)) (MState q (rs', m', fl')) /\
    nth_error (w_code w) q = Some (EIns call [OFn ioob]) /\
    rs' rdi = wint (ival iw) /\ rs' rsi = load h2 p /\ rs' rsp mod 16 = 0 /\ agree (w_heap w) m' h2.
Proof. exact index_outside. Qed.
Print Assumptions C29_index_outside.

(** at(a, 1) and at(a, -1) for an array of three ints at 5000, the second being 42. *)
Definition three : memory := store (store zero 5000 (wint 3)) 5016 (wint 42).
Definition at_code : expr := EIndex t_int (EVar t_array 0) (v 1).
Example C29_example :
  (exists rs' m' fl', runs sample (MState (sample_fn "clara_at.array.int.int" + 4) (body_regs, body_mem three 5000 (wint 1), None))
    (MState (sample_fn "clara_at.array.int.int" + 4 + List.length (match gen_expr two_slots at_code false (body_state start) with Some (c, _) => c | None => [] end)) (rs', m', fl')) /\
    rs' rax = wint 42) /\
  (exists q rs' m' fl', runs sample (MState (sample_fn "clara_at.array.int.int" + 4) (body_regs, body_mem three 5000 (wint (-1)), None)) (MState q (rs', m', fl')) /\
    nth_error (w_code sample) q = Some (EIns call [OFn "clara_ioob.int.int"]) /\ rs' rdi = wint (-1) /\ rs' rsi = wint 3).
Proof.
  destruct (gen_expr two_slots at_code false (body_state start)) as [[c s']|] eqn:E; [|vm_compute in E; discriminate].
  assert (Hc : code_at (w_code sample) (sample_fn "clara_at.array.int.int" + 4) c).
  { apply code_is. vm_compute in E. injection E as <- _. vm_compute. reflexivity. }
  assert (Hl : lits_in sample s').
  { intros k x Hk. vm_compute in E. injection E as _ <-. destruct k; discriminate Hk. }
  split.
  - destruct (C29_index_inside sample sample_loaded 5 1 two_slots 2 131040 [] (two_vars 5000 (wint 1)) three (body_state start) c s'
      (sample_fn "clara_at.array.int.int" + 4) body_regs (body_mem three 5000 (wint 1)) None t_int (EVar t_array 0) (v 1) 5000 three (wint 1) three)
      as (rs' & m' & fl' & H1 & H2 & _); try reflexivity; auto.
    + apply body_inside; vm_compute; split; congruence.
    + vm_compute. discriminate.
    + vm_compute. split; congruence.
    + exists rs', m', fl'. split; [exact H1|]. rewrite H2. vm_compute. reflexivity.
  - destruct (C29_index_outside sample sample_loaded 5 1 two_slots 2 131040 [] (two_vars 5000 (wint (-1))) three (body_state start) c s'
      (sample_fn "clara_at.array.int.int" + 4) body_regs (body_mem three 5000 (wint (-1))) None t_int (EVar t_array 0) (v 1) 5000 three (wint (-1)) three
      false "clara_ioob.int.int")
      as (q & rs' & m' & fl' & H1 & H2 & H3 & H4 & _); try reflexivity; auto.
    + apply body_inside; vm_compute; split; congruence.
    + vm_compute. discriminate.
    + vm_compute. split; congruence.
    + vm_compute. discriminate.
    + vm_compute. intros [A _]. now apply A.
    + destruct (find_label (w_code sample) LIoob) as [k|] eqn:F; [|vm_compute in F; discriminate]. exists k. split; [exact F|].
      apply code_is. vm_compute in F. injection F as <-. vm_compute. reflexivity.
    + exists q, rs', m', fl'. split; [exact H1|]. split; [exact H2|]. split; [exact H3|]. rewrite H4. vm_compute. reflexivity.
Qed.

(* ------------------------------------------------------------------- C30 *)

(** The slots of a function's variables lie in its frame ([8 * t] bytes below the frame
    pointer, t rounded up when the frame is made) and apart from each other, so writing
    one leaves the others; the parameters have the first slots, in order; and along any
    execution of the function's code, whatever is pushed is pushed below the frame. *)
Theorem C30_variables_do_not_alias :
  forall unq alloc ioob entry ts full P sf fd t l,
  gen_program unq alloc ioob entry ts full start = Some (P, sf) ->
  NoDup (map f_name full ++ routine_names) -> NoDup (map_labels ts) -> In fd full ->
  fn_slots fd = (t, l) ->
  (forall x, variable_of fd x -> 8 <= get_slot l x <= 8 * t /\ get_slot l x mod 8 = 0) /\
  (forall x y, variable_of fd x -> variable_of fd y -> x <> y ->
     forall m B u, load (store m (B - get_slot l x) u) (B - get_slot l y) = load m (B - get_slot l y)) /\
  t <= rounded fd /\
  exists n n', find_fn P (f_name fd) = Some n /\
  forall laddr mext mskips addr place rs0 m fl s' rs' m' fl' o,
    fn_run laddr mext mskips addr place P n n' (MState n (rs0, m, fl)) s' -> mcore s' = (rs', m', fl') -> (n <= pc s' < n')%nat ->
    nth_error P (pc s') = Some (EIns pushq o) ->
    rs' rbp = word (rs0 rsp - 8) /\ exists d, rounded fd <= d /\ rs' rsp = word (rs' rbp - 8 * d).
Proof.
  intros unq alloc ioob entry ts full P sf fd t l H1 H2 H3 H4 Hs. destruct (slots_apart fd t l Hs) as [S1 S2].
  split; [exact S1|]. split; [|split].
  - intros x y Hx Hy Hne m B u. apply load_store_other. pose proof (S2 x y Hx Hy Hne). lia.
  - unfold rounded. rewrite Hs. cbn [fst]. unfold round_temps. destruct (Z.eqb_spec (t mod 2) 0); lia.
  - destruct (program_stack unq alloc ioob entry ts full P sf fd H1 H2 H3 H4) as (n & n' & F & K). exists n, n'. split; [exact F|].
    intros laddr mext mskips addr place rs0 m fl s' rs' m' fl' o A1 A2 A3 A4.
    destruct (K laddr mext mskips addr place rs0 m fl s' rs' m' fl' _ A1 A2 A3 A4) as [K1 K2]. split; [exact K1|]. rewrite K1. exact K2.
Qed.
Print Assumptions C30_variables_do_not_alias.

(** sum has a parameter and a variable. *)
Example C30_example : In f_sum sample_full /\ fn_slots f_sum = (2, [(0%nat, 8); (1%nat, 16)]) /\ variable_of f_sum 0 /\ variable_of f_sum 1.
Proof. split; [cbn; tauto|]. split; [vm_compute; reflexivity|]. unfold variable_of. cbn. tauto. Qed.

(* ------------------------------------------------------------------- C31 *)

(** A function over ints and bools called with [args]: what it returns by the rules of
    [returns] is what its code returns; if the rules lead to a division by zero, the
    processor raises a divide error. *)
Theorem C31_control_flow_preserved :
  forall w, loaded w ->
  forall fd args x h n rs m fl q,
  In fd (w_prog w) -> nth_error (w_code w) n = Some (EFn (f_name fd)) ->
  (forall v, In v args -> in_range v) -> args_in (words args) rs ->
  is_addr (rs rbp) -> rs rsp mod 16 = 8 -> w_lo w + w_room w + w_frame w <= rs rsp + 8 <= w_hi w -> agree (w_heap w) m h ->
  w_place w (if f_extret fd then load m (rs rsp) else word (load m (rs rsp) + 8)) = Some q ->
  returns (bind_vals (f_params fd) args) fd x ->
  match x with
  | Some v => exists rs' m' fl', runs w (MState n (rs, m, fl)) (MState q (rs', m', fl')) /\
      match v with Some v => rs' rax = word_of v | None => True end /\
      rs' rsp = rs rsp + 8 /\ rs' rbp = rs rbp /\ agree (w_heap w) m' h /\ stack_kept w (rs rsp + 8) m m'
  | None => exists st', runs w (MState n (rs, m, fl)) st' /\ at_division_by_zero (w_code w) st'
  end.
Proof. exact plain_fun. Qed.
Print Assumptions C31_control_flow_preserved.

(** Functions that also call functions, use memory and index arrays: the code does what
    the interpreter does, within [d] nested calls. *)
Theorem C31_functions_as_interpreted :
  forall w, loaded w ->
  forall N d fd vs h n rs m fl q,
  In fd (w_prog w) -> nth_error (w_code w) n = Some (EFn (f_name fd)) ->
  in_use vs rs -> is_addr (rs rbp) -> rs rsp mod 16 = 8 ->
  w_lo w + w_room w + Z.of_nat d * w_frame w <= rs rsp + 8 <= w_hi w -> agree (w_heap w) m h ->
  w_place w (if f_extret fd then load m (rs rsp) else word (load m (rs rsp) + 8)) = Some q ->
  behaves w (MState n (rs, m, fl)) (ev_fun w N d fd vs h) (fun '(v, h') st' =>
    exists rs' m' fl', st' = MState q (rs', m', fl') /\ result_in v rs' /\
      rs' rsp = rs rsp + 8 /\ rs' rbp = rs rbp /\ agree (w_heap w) m' h' /\ stack_kept w (rs rsp + 8) m m').
Proof. exact fun_code. Qed.
Print Assumptions C31_functions_as_interpreted.

(** sum(4) = 10: four times through the loop. *)
Lemma sum_4 : returns (bind_vals (f_params f_sum) [VInt 4]) f_sum (Some (Some (VInt 10))).
Proof.
  eapply R_return; [reflexivity|]. eapply D_cons; [eapply D_das; vm_compute; reflexivity|]. eapply D_cons.
  - do 4 (eapply D_while_again; [vm_compute; reflexivity|eapply D_cons; [eapply D_as; vm_compute; reflexivity|eapply D_cons; [eapply D_as; vm_compute; reflexivity|apply D_nil]]|]).
    apply D_while_end. vm_compute. reflexivity.
  - eapply D_out; [eapply D_return; vm_compute; reflexivity|discriminate].
Qed.
Lemma entry_agree h : agree sample_heap (entry_mem h) h.
Proof.
  intros a Ha. apply sample_heap_ok in Ha. cbn in Ha. unfold entry_mem, store.
  destruct (Z.leb_spec 131048 a); cbn [andb]; [|reflexivity]. destruct (Z.ltb_spec a (131048 + 8)); [lia|reflexivity].
Qed.
Example C31_example :
  exists rs' m' fl', runs sample (MState (sample_fn "clara_sum.int") (entry_regs (wint 4) 0, entry_mem zero, None)) (MState 4 (rs', m', fl')) /\ rs' rax = wint 10.
Proof.
  destruct (C31_control_flow_preserved sample sample_loaded f_sum [VInt 4] (Some (Some (VInt 10))) zero (sample_fn "clara_sum.int")
    (entry_regs (wint 4) 0) (entry_mem zero) None 4) as (rs' & m' & fl' & H1 & H2 & _).
  - cbn. tauto.
  - vm_compute. reflexivity.
  - intros u [<-|[]]; vm_compute; split; discriminate.
  - intros k u r Hk Hr. destruct k as [|k]; cbn in Hk, Hr; [injection Hk as <-; injection Hr as <-; reflexivity|]. destruct k; discriminate.
  - vm_compute. split; congruence.
  - reflexivity.
  - vm_compute. split; discriminate.
  - apply entry_agree.
  - vm_compute. reflexivity.
  - exact sum_4.
  - exists rs', m', fl'. auto.
Qed.

(* ------------------------------------------------------------------- C33 *)

(** The texts of all labels of a file are pairwise different and every jump goes to one
    of them.  Partial: the functions' names must differ and must not be that of the entry
    routine.  (That functions' names differ is property C16.) *)
Theorem C33_labels_unique_partial :
  forall unq alloc ioob entry ts prog c s',
  gen_program unq alloc ioob entry ts prog start = Some (c, s') ->
  NoDup (map f_name prog) -> NoDup (map_labels ts) ->
  (forall f, In f (map f_name prog) -> exists r, f = ("clara_" ++ r)%string /\ r <> "asm_entrypoint"%string) ->
  NoDup (defined_text c) /\ forall i l, In (EIns i [OLab l]) c -> In (label_text l) (defined_text c).
Proof.
  intros unq alloc ioob entry ts prog c s' H1 H2 H3 H4. split; [exact (program_texts _ _ _ _ _ _ _ _ H1 H2 H3 H4)|].
  intros i l H. exact (jump_defined _ _ _ _ _ _ _ _ i l H1 H).
Qed.
Print Assumptions C33_labels_unique_partial.

Example C33_example : exists s', gen_program sample_unq "clara_claralloc" "clara_ioob.int.int" "clara_main" sample_types sample_full start = Some (sample_file, s') /\
  NoDup (map f_name sample_full) /\ (forall f, In f (map f_name sample_full) -> exists r, f = ("clara_" ++ r)%string /\ r <> "asm_entrypoint"%string) /\
  In (EIns jae [OLab LIoob]) sample_file /\ (20 <= List.length (defined_text sample_file))%nat.
Proof.
  destruct sample_generated as (s & E & _). exists s. split; [exact E|]. split; [|split; [|split]].
  - assert (H : forall A (l r : list A), NoDup (l ++ r) -> NoDup l).
    { intros A l r. induction l as [|x l IH]; intros H; [constructor|]. cbn in H. apply NoDup_cons_iff in H as [H1 H2].
      constructor; [intros G; apply H1; apply in_app_iff; auto|auto]. }
    exact (H _ _ _ sample_names).
  - intros f Hf. cbn in Hf. repeat (destruct Hf as [<-|Hf]; [eexists; split; [reflexivity|discriminate]|]). destruct Hf.
  - apply (nth_error_In sample_file (sample_fn "clara_at.array.int.int" + 14)). vm_compute. reflexivity.
  - apply Nat.leb_le. vm_compute. reflexivity.
Qed.

(** A function asm_entrypoint() gets the label of the entry routine. *)
Theorem C33_refuted :
  exists unq alloc ioob entry ts prog c s', gen_program unq alloc ioob entry ts prog start = Some (c, s') /\
    NoDup (map f_name prog) /\ NoDup (map_labels ts) /\
    map f_name prog = ["clara_main"; "clara_asm_entrypoint"]%string /\ ~ NoDup (defined_text c).
Proof.
  exists sample_unq, "clara_claralloc"%string, "clara_ioob.int.int"%string, "clara_main"%string, sample_types,
    [Fun "clara_main" [] (BExpr (i 1)) TInteger false; Fun "clara_asm_entrypoint" [] (BExpr (i 1)) TInteger false].
  destruct (gen_program sample_unq "clara_claralloc" "clara_ioob.int.int" "clara_main" sample_types
    [Fun "clara_main" [] (BExpr (i 1)) TInteger false; Fun "clara_asm_entrypoint" [] (BExpr (i 1)) TInteger false] start) as [[c s']|] eqn:E; [|vm_compute in E; discriminate].
  exists c, s'. split; [reflexivity|]. split; [nodup_strings|]. split; [exact sample_maps|]. split; [reflexivity|].
  intros H. assert (F : (2 <= count_occ string_dec (defined_text c) "clara_asm_entrypoint")%nat).
  { vm_compute in E. injection E as <- _. apply Nat.leb_le. vm_compute. reflexivity. }
  pose proof (proj1 (NoDup_count_occ string_dec _) H "clara_asm_entrypoint"%string). lia.
Qed.
Print Assumptions C33_refuted.

(* ------------------------------------------------------------------- C35 *)

(** A constructor returns an object with its arguments in its fields, and with its tag if
    it is that of an enum member; the rest of memory is as the allocator left it.  The
    i-th field is [object_size i tag] bytes into the object. *)
Theorem C35_constructor :
  forall w, loaded w ->
  forall N d fd tag id descr vs h n rs m fl q p h1,
  In fd (w_prog w) -> nth_error (w_code w) n = Some (EFn (f_name fd)) -> f_body fd = BCons tag id descr ->
  List.length vs = List.length (f_params fd) -> (forall v, In v vs -> v <> None) ->
  in_use vs rs -> is_addr (rs rbp) -> rs rsp mod 16 = 8 ->
  w_lo w + w_room w + Z.of_nat (S d) * w_frame w <= rs rsp + 8 <= w_hi w -> agree (w_heap w) m h ->
  w_place w (if f_extret fd then load m (rs rsp) else word (load m (rs rsp) + 8)) = Some q ->
  ev_call w N d (w_alloc w) [Some (wint (object_size (List.length vs) tag)); Some (w_lit w descr); Some (wint id)] h = Val (Some p, h1) ->
  0 <= p -> p + object_size (List.length vs) tag <= 18446744073709551616 ->
  (forall a, p <= a < p + object_size (List.length vs) tag -> w_heap w a = true) ->
  exists rs' m' fl', runs w (MState n (rs, m, fl)) (MState q (rs', m', fl')) /\ rs' rax = p /\
    rs' rsp = rs rsp + 8 /\ rs' rbp = rs rbp /\ stack_kept w (rs rsp + 8) m m' /\
    (forall t, tag = Some t -> load m' p = wint t) /\
    (forall i v, nth_error vs i = Some (Some v) -> load m' (p + object_size i tag) = v) /\
    (forall a, w_heap w a = true -> a < p \/ p + object_size (List.length vs) tag <= a -> m' a = h1 a).
Proof. exact cons_code. Qed.
Print Assumptions C35_constructor.
(** Reading the field at offset [z] ... *)
Theorem C35_field_read :
  forall w, loaded w ->
  forall N d slot T B us r h s c s' n rs m fl t l u z p h1,
  gen_expr slot (EDot t l (EOff u z)) false s = Some (c, s') -> code_at (w_code w) n c -> lits_in w s' ->
  safe (List.length us) l = true -> imm32 z = true -> List.length us = regs_in_use s ->
  inside w slot T B (g_sp s) us r h rs m -> stack_left w d (pushes (EDot t l (EOff u z))) rs ->
  ev w (S N) d r h l = Val (Some p, h1) -> 0 <= p + z < 18446744073709551616 -> ok8 (w_heap w) (p + z) = true ->
  exists rs' m' fl', runs w (MState n (rs, m, fl)) (MState (n + List.length c) (rs', m', fl')) /\
    rs' rax = load h1 (p + z) /\ stack_kept w (rs rsp) m m' /\ inside w slot T B (g_sp s) us r h1 rs' m'.
Proof. exact dot_read. Qed.
Print Assumptions C35_field_read.
(** ... and writing it, which changes nothing else. *)
Theorem C35_field_write :
  forall w, loaded w ->
  forall N d slot T B r h s c s' n q rs m fl ext t l u z e v h1 p h2,
  gen_stmt slot ext (SAs (EDot t l (EOff u z)) e) s = Some (c, s') -> code_at (w_code w) n c -> lits_in w s' ->
  safe 0 l = true -> safe 0 e = true -> imm32 z = true -> regs_in_use s = 0%nat -> g_sp s = T ->
  (forall x, In x (expr_vars l ++ expr_vars e) -> slot x <> 0) ->
  inside w slot T B T [] r h rs m -> stack_left w d (pushes_stmt (SAs (EDot t l (EOff u z)) e)) rs ->
  w_place w (if ext then load m (B + 8) else word (load m (B + 8) + 8)) = Some q ->
  ev w (S (S N)) d r h e = Val (Some v, h1) -> ev w (S N) d r h1 l = Val (Some p, h2) -> is_addr v ->
  0 <= p + z < 18446744073709551616 -> ok8 (w_heap w) (p + z) = true ->
  exists rs' m' fl', runs w (MState n (rs, m, fl)) (MState (n + List.length c) (rs', m', fl')) /\
    stack_kept w B m m' /\ inside w slot T B T [] r (store h2 (p + z) v) rs' m' /\
    load m' (p + z) = v /\
    (forall a, w_heap w a = true -> a < p + z \/ p + z + 8 <= a -> m' a = h2 a).
Proof. exact dot_write. Qed.
Print Assumptions C35_field_write.

(** pair(7, 9) at 5000, second(p) and set(p, 11). *)
Example C35_constructor_example :
  exists rs' m' fl', runs sample (MState (sample_fn "clara_pair.int.int") (entry_regs (wint 7) (wint 9), entry_mem zero, None)) (MState 4 (rs', m', fl')) /\
    rs' rax = 5000 /\ load m' 5000 = wint 7 /\ load m' 5008 = wint 9.
Proof.
  destruct (C35_constructor sample sample_loaded 5 1 f_pair None 9 pair_text [Some (wint 7); Some (wint 9)] zero (sample_fn "clara_pair.int.int")
    (entry_regs (wint 7) (wint 9)) (entry_mem zero) None 4 5000 zero) as (rs' & m' & fl' & H1 & H2 & _ & _ & _ & _ & H3 & _); try reflexivity.
  - cbn. tauto.
  - intros u [<-|[<-|[]]]; discriminate.
  - split.
    + intros k u r Hk Hr. destruct k as [|[|k]]; cbn in Hk, Hr; [injection Hk as <-; injection Hr as <-; reflexivity|injection Hk as <-; injection Hr as <-; reflexivity|].
      destruct k; discriminate.
    + intros u [E|[E|[]]]; injection E as <-; vm_compute; split; congruence.
  - vm_compute. split; congruence.
  - vm_compute. split; discriminate.
  - apply entry_agree.
  - vm_compute. discriminate.
  - vm_compute. discriminate.
  - intros a Ha. change (object_size _ _) with 16 in Ha. cbn. unfold sample_heap. apply andb_true_intro. split; [apply Z.leb_le|apply Z.ltb_lt]; lia.
  - exists rs', m', fl'. split; [exact H1|]. split; [exact H2|]. split; [exact (H3 0%nat _ eq_refl)|exact (H3 1%nat _ eq_refl)].
Qed.
Definition pair_mem : memory := store (store zero 5000 (wint 7)) 5008 (wint 9).
Example C35_read_example :
  exists rs' m' fl', runs sample (MState (sample_fn "clara_second.pair" + 3) (body_regs, body_mem pair_mem 5000 0, None))
    (MState (sample_fn "clara_second.pair" + 3 + List.length (match gen_expr two_slots (EDot t_int (EVar t_pair 0) (EOff t_int 8)) false (body_state start) with Some (c, _) => c | None => [] end)) (rs', m', fl')) /\
    rs' rax = wint 9.
Proof.
  destruct (gen_expr two_slots (EDot t_int (EVar t_pair 0) (EOff t_int 8)) false (body_state start)) as [[c s']|] eqn:E; [|vm_compute in E; discriminate].
  destruct (C35_field_read sample sample_loaded 5 1 two_slots 2 131040 [] (two_vars 5000 0) pair_mem (body_state start) c s'
    (sample_fn "clara_second.pair" + 3) body_regs (body_mem pair_mem 5000 0) None t_int (EVar t_pair 0) t_int 8 5000 pair_mem)
    as (rs' & m' & fl' & H1 & H2 & _); try reflexivity; auto.
  - apply code_is. vm_compute in E. injection E as <- _. vm_compute. reflexivity.
  - intros k x Hk. vm_compute in E. injection E as _ <-. destruct k; discriminate Hk.
  - apply body_inside; vm_compute; split; congruence.
  - vm_compute. discriminate.
  - vm_compute. split; congruence.
  - exists rs', m', fl'. split; [exact H1|]. rewrite H2. vm_compute. reflexivity.
Qed.
Definition set_stmt : stmt := SAs (EDot t_int (EVar t_pair 0) (EOff t_int 8)) (v 1).
Example C35_write_example :
  exists rs' m' fl', runs sample (MState (sample_fn "clara_set.pair.int" + 4) (body_regs, body_mem pair_mem 5000 (wint 11), None))
    (MState (sample_fn "clara_set.pair.int" + 4 + List.length (match gen_stmt two_slots false set_stmt (body_state start) with Some (c, _) => c | None => [] end)) (rs', m', fl')) /\
    load m' 5008 = wint 11 /\ load m' 5000 = wint 7.
Proof.
  destruct (gen_stmt two_slots false set_stmt (body_state start)) as [[c s']|] eqn:E; [|vm_compute in E; discriminate].
  destruct (C35_field_write sample sample_loaded 5 1 two_slots 2 131040 (two_vars 5000 (wint 11)) pair_mem (body_state start) c s'
    (sample_fn "clara_set.pair.int" + 4) 4 body_regs (body_mem pair_mem 5000 (wint 11)) None false t_int (EVar t_pair 0) t_int 8 (v 1) (wint 11) pair_mem 5000 pair_mem)
    as (rs' & m' & fl' & H1 & _ & _ & H2 & H3); try reflexivity; auto.
  - apply code_is. vm_compute in E. injection E as <- _. vm_compute. reflexivity.
  - intros k x Hk. vm_compute in E. injection E as _ <-. destruct k; discriminate Hk.
  - intros x [<-|[<-|[]]]; vm_compute; discriminate.
  - apply body_inside; vm_compute; split; congruence.
  - vm_compute. discriminate.
  - vm_compute. split; congruence.
  - vm_compute. split; congruence.
  - exists rs', m', fl'. split; [exact H1|]. split; [exact H2|]. transitivity (load pair_mem 5000); [|vm_compute; reflexivity].
    apply load_ext. intros j Hj. apply H3; [|lia]. change (sample_heap (5000 + j) = true). unfold sample_heap. apply andb_true_intro. split; [apply Z.leb_le|apply Z.ltb_lt]; lia.
Qed.
