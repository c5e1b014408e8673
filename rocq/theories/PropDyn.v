(** Calls of function values: theorems for property C61. *)
From Coq Require Import ZArith List Bool String Lia.
From Verif Require Import Ints X86 GenModel GenProgram GenSpec GenMem GenStatic GenSlots GenExec GenLabels GenLink GenWorld GenProps GenSample
  FitSpec FitProofs GcModel GcSpec GcHeader DynModel DynProofs.
Import ListNotations.
Open Scope Z_scope.

(* --------------------------------------------------------------------------------- C61 *)

(** What the code of invokeDynamic is to do when it is called from Clara code, at place [n]
    with registers [rs] and memory [m]: go back to place [q] with what [r] gives in rax,
    having kept the caller's part of the stack, or fail as [r] fails. *)
Definition does_as (w : world) (n : nat) (rs : regs) (m : memory) (fl : option (Z * Z)) (q : nat) (r : res (value * memory)) : Prop :=
  behaves w (MState n (rs, m, fl)) r (fun '(v, h') st' =>
    exists rs' m' fl', st' = MState q (rs', m', fl') /\ result_in v rs' /\
      rs' rsp = rs rsp + 8 /\ rs' rbp = rs rbp /\ agree (w_heap w) m' h' /\ stack_kept w (rs rsp + 8) m m').
(** The code of invokeDynamic is about to run with [vs], stack for [d] nested calls, memory
    [h], to go back to [q]. *)
Definition at_invoke (w : world) (d : nat) (vs : list value) (h : memory) (n : nat) (rs : regs) (m : memory) (q : nat) : Prop :=
  nth_error (w_code w) n = Some (EFn (f_name invoke_dynamic)) /\ in_use vs rs /\ is_addr (rs rbp) /\ rs rsp mod 16 = 8 /\
  w_lo w + w_room w + Z.of_nat d * w_frame w <= rs rsp + 8 <= w_hi w /\ agree (w_heap w) m h /\
  w_place w (word (load m (rs rsp) + 8)) = Some q.

(** A call of a closure runs the closure's function, with the closure's environment before
    the arguments, and what that function returns is what the call returns. *)
Theorem C61_closures_are_called_partial : forall w, loaded w -> has_dynamic w ->
  forall N d p a1 a2 a3 a4 a5 h f g n rs m fl q, (30 <= N)%nat ->
  at_invoke w (S (S (S d))) (map Some [p; a1; a2; a3; a4; a5]) h n rs m q ->
  header_in_memory w p -> marked_read_only h p = false ->
  ok8 (w_heap w) (word p) = true -> ok8 (w_heap w) (word (p + 8)) = true ->
  w_fun_at w (load h (word p)) = Some f -> find_fun (w_prog w) f = Some g -> f_extret g = false ->
  does_as w n rs m fl q (ev_fun w N (S (S d)) g (map Some [load h (word (p + 8)); a1; a2; a3; a4; a5]) h).
Proof.
  intros w Hw Hd N d p a1 a2 a3 a4 a5 h f g n rs m fl q HN (A1 & A2 & A3 & A4 & A5 & A6 & A7) Hh Hm Ho Ho8 Hf Hg Hx.
  pose proof (tail_code w Hd Hw (7 + N) (S (S (S d))) _ h n rs m fl q A1 A2 A3 A4 A5 A6 A7) as T.
  change (map Some [p; a1; a2; a3; a4; a5]) with (Some p :: dyn_vals a1 a2 a3 a4 a5) in T. rewrite (dyn_closure w Hd N d p a1 a2 a3 a4 a5 h f g HN Hh Hm Ho Ho8 Hf Hg Hx) in T. exact T.
Qed.
Print Assumptions C61_closures_are_called_partial.

(** A call of a function that is not a closure runs that function with the arguments. *)
Theorem C61_functions_are_called_partial : forall w, loaded w -> has_dynamic w ->
  forall N d p a1 a2 a3 a4 a5 h f g n rs m fl q, (30 <= N)%nat ->
  at_invoke w (S (S (S d))) (map Some [p; a1; a2; a3; a4; a5]) h n rs m q ->
  header_in_memory w p -> marked_read_only h p = true ->
  w_fun_at w p = Some f -> find_fun (w_prog w) f = Some g -> f_extret g = false ->
  does_as w n rs m fl q (ev_fun w N (S (S d)) g (map Some [a1; a2; a3; a4; a5]) h).
Proof.
  intros w Hw Hd N d p a1 a2 a3 a4 a5 h f g n rs m fl q HN (A1 & A2 & A3 & A4 & A5 & A6 & A7) Hh Hm Hf Hg Hx.
  pose proof (tail_code w Hd Hw (8 + N) (S (S (S d))) _ h n rs m fl q A1 A2 A3 A4 A5 A6 A7) as T.
  assert (Hp : is_addr p) by (apply A2; left; reflexivity).
  change (map Some [p; a1; a2; a3; a4; a5]) with (Some p :: dyn_vals a1 a2 a3 a4 a5) in T. rewrite (dyn_function w Hd N d p a1 a2 a3 a4 a5 h f g HN Hp Hh Hm Hf Hg Hx) in T. exact T.
Qed.
Print Assumptions C61_functions_are_called_partial.

(** isClosure tells them apart by the bit that marks what is read only. *)
Theorem C61_closures_are_told_by_their_header : forall w, has_dynamic w ->
  forall N d p h, (24 <= N)%nat -> header_in_memory w p ->
  ev_fun w N (S (S d)) is_closure [Some p] h = Val (Some (wbool (negb (marked_read_only h p))), h).
Proof. intros w Hd N d p h HN Hh. exact (run_is_closure w Hd N d p h HN Hh). Qed.
Print Assumptions C61_closures_are_told_by_their_header.

(** The headers of C38 tell them apart: that of what the compiler writes, functions with
    type id 5 among it (asm.go:388), is marked, that of an object made when the program
    runs, as closures are, is not, and the collector's mark makes no difference. *)
Theorem C61_headers_tell_them_apart : forall h p id, 0 <= id < 2 ^ 15 ->
  (load h (word (p - 8)) = wint (read_only_header id) -> marked_read_only h p = true) /\
  (load h (word (p - 8)) = wint (new_header id) \/ load h (word (p - 8)) = wint (with_mark (new_header id)) -> marked_read_only h p = false).
Proof.
  assert (X : forall h p id ro mark, load h (word (p - 8)) = wint (header_of id ro mark) -> marked_read_only h p = ro).
  { intros h p id ro mark E. unfold marked_read_only. rewrite E. unfold wint, word, header_of. change W with (2 ^ 64). rewrite Z.mod_pow2_bits_low by lia.
    apply Z.b2z_inj. rewrite Z.testbit_spec' by lia.
    replace (2 * (id * 2 ^ 47 + (if ro then 2 else 0) + (if mark then 1 else 0)) + 1) with ((id * 2 ^ 45 * 2 + (if ro then 1 else 0)) * 2 ^ 2 + (if mark then 3 else 1)) by (destruct ro, mark; lia).
    rewrite Z.div_add_l by lia. replace ((if mark then 3 else 1) / 2 ^ 2) with 0 by (destruct mark; reflexivity). rewrite Z.add_0_r, Z.add_comm, Z.mod_add by lia. now destruct ro. }
  intros h p id Hid. rewrite read_only_header_is, new_header_of by exact Hid. split; [apply X|].
  rewrite with_mark_header. intros [E|E]; eapply X; exact E.
Qed.
Print Assumptions C61_headers_tell_them_apart.
Example C61_header_of_functions : marked_read_only (store zero 1000 (wint (read_only_header 5))) 1008 = true /\ marked_read_only (store zero 1000 (wint (new_header 9))) 1008 = false.
Proof. split; vm_compute; reflexivity. Qed.

(** There are six argument registers and one is for the function value: a function that
    calls a function value with six arguments has no code, though functions may have six
    parameters and be called by their names. *)
Theorem C61_six_arguments_refuted : forall alloc f t x args s,
  f_body f = BExpr (ECall t (own TNothing) (f_name invoke_dynamic) (x :: args)) -> List.length args = 6%nat ->
  gen_fn alloc f s = None.
Proof.
  intros alloc f t x args s E L. destruct (gen_fn alloc f s) as [[c s']|] eqn:G; [|reflexivity].
  assert (H : has_code f) by (apply (gen_fn_runs alloc f s); eauto). destruct H as (_ & F & _). rewrite E in F. cbn in F.
  inversion F; subst. cbn [List.length] in *. lia.
Qed.
Print Assumptions C61_six_arguments_refuted.
Definition six_parameters : fundef :=
  Fun "clara_six" (map (fun x => (x, ty_int)) [0; 1; 2; 3; 4; 5]%nat) (BExpr (ECall ty_int (own TInteger) "clara_six" (map (EVar ty_int) [0; 1; 2; 3; 4; 5]%nat))) TInteger false.
Example C61_six_by_name : exists c s', gen_fn "a" six_parameters start = Some (c, s').
Proof. destruct (gen_fn "a" six_parameters start) as [[c s']|] eqn:E; [eauto|vm_compute in E; discriminate]. Qed.
Example C61_six_by_value : forall s, gen_fn "a" (Fun "clara_any" [(0%nat, ty_function)]
  (BExpr (ECall ty_int (own TNothing) (f_name invoke_dynamic) (EVar ty_function 0 :: map (ELitInt ty_int) [1; 2; 3; 4; 5; 6]))) TInteger false) s = None.
Proof. intros s. now apply C61_six_arguments_refuted with (t := ty_int) (x := EVar ty_function 0) (args := map (ELitInt ty_int) [1; 2; 3; 4; 5; 6]). Qed.

(** A program with a function of a closure, fn(x: int) int = n + x with n captured, and a
    function, fn sub(a: int, b: int) int = a - b.  At 5000 is a closure whose environment,
    at 6000, has 30; the word before the code of sub is marked. *)
Definition f_lambda : fundef := Fun "clara_lambda" [(0%nat, ty_env); (1%nat, ty_int)]
  (BExpr (EArith ty_int Add (EDot ty_int (EVar ty_env 0) (EOff ty_int 0)) (EVar ty_int 1))) TInteger false.
Definition f_sub : fundef := Fun "clara_sub.int.int" [(0%nat, ty_int); (1%nat, ty_int)] (BExpr (EArith ty_int Sub (EVar ty_int 0) (EVar ty_int 1))) TInteger false.
Definition dyn_prog : list fundef := dyn_functions ++ [f_lambda; f_sub].
Notation dyn_out := (gen_program sample_unq "clara_claralloc" "clara_ioob.int.int" "clara_main" [] dyn_prog start) (only parsing).
Definition dyn_file : list event := Eval vm_compute in match dyn_out with Some (P, _) => P | None => [] end.
Definition dyn_lits : list (list Z) := Eval vm_compute in match dyn_out with Some (_, s) => g_lits s | None => [] end.
Definition dyn_heap (a : Z) : bool := sample_heap a || ((link_fun dyn_file "clara_sub.int.int" - 8 <=? a) && (a <? link_fun dyn_file "clara_sub.int.int")).
Definition dyn_ext (f : string) (c : regs * memory) : option (regs * memory) := None.
Definition dyn_world : world :=
  file_world dyn_file dyn_lits dyn_ext (String.eqb "clara_claralloc") dyn_heap
    (fun f vs h => if String.eqb f "unsafe" then match vs with Some p :: Some i :: _ => Some (Some (word (p + ival i)), h) | _ => None end else None) (fun _ _ _ => None)
    "clara_claralloc" dyn_prog 65536 131072 1024 512.
Lemma dyn_loaded : loaded dyn_world.
Proof.
  assert (X : exists s, dyn_out = Some (dyn_file, s) /\ dyn_lits = g_lits s).
  { destruct dyn_out as [[P s]|] eqn:E; [|vm_compute in E; discriminate]. exists s.
    assert (H1 : Some P = Some dyn_file) by (transitivity (option_map fst dyn_out); [now rewrite E|vm_compute; reflexivity]).
    assert (H2 : Some (g_lits s) = Some dyn_lits) by (transitivity (option_map (fun x => g_lits (snd x)) dyn_out); [now rewrite E|vm_compute; reflexivity]).
    injection H1 as <-. injection H2 as <-. split; reflexivity. }
  destruct X as (s & E & El). unfold dyn_world. rewrite El.
  eapply (file_loaded sample_unq "clara_claralloc" "clara_ioob.int.int" "clara_main" [] dyn_prog dyn_file s); try exact E; try lia.
  - nodup_strings.
  - constructor.
  - apply Z.ltb_lt. vm_compute. reflexivity.
  - intros a Ha. unfold dyn_heap in Ha. apply orb_prop in Ha as [Ha|Ha]; [now apply sample_heap_ok|]. apply andb_prop in Ha as [H1 H2]. apply Z.leb_le in H1. apply Z.ltb_lt in H2.
    set (k := link_fun dyn_file "clara_sub.int.int") in *. vm_compute in k. subst k. unfold is_addr. change W with 18446744073709551616. lia.
  - apply incl_refl.
  - intros fd Hfd. repeat (destruct Hfd as [<-|Hfd]; [vm_compute; split; [reflexivity|discriminate]|]). destruct Hfd.
  - intros f vs h v h' H. left. destruct (String.eqb_spec f "unsafe") as [->|]; [exact H|discriminate].
  - discriminate.
Qed.
Lemma dyn_has : has_dynamic dyn_world.
Proof.
  split; [|reflexivity]. intros fd Hfd. repeat (destruct Hfd as [<-|Hfd]; [vm_compute; reflexivity|]). destruct Hfd.
Qed.
Definition dyn_h : memory :=
  store (store (store (store zero 5000 (link_fun dyn_file "clara_lambda")) 5008 6000) 6000 (wint 30)) (link_fun dyn_file "clara_sub.int.int" - 8) (wint (read_only_header 5)).
Definition dyn_regs (p a b : Z) : regs := fun r => match r with rbp => 131056 | rsp => 131048 | rdi => p | rsi => a | rdx => b | _ => 0 end.
Definition dyn_entry : nat := match find_fn dyn_file (f_name invoke_dynamic) with Some n => n | None => 0%nat end.
Lemma dyn_at p a b : is_addr p -> is_addr a -> is_addr b -> at_invoke dyn_world 3 (map Some [p; a; b; 0; 0; 0]) dyn_h dyn_entry (dyn_regs p a b) (entry_mem dyn_h) 4.
Proof.
  intros Hp Ha Hb. split; [vm_compute; reflexivity|]. split.
  { split.
    - intros k u r Hk Hr. do 6 (destruct k as [|k]; [cbn in Hk, Hr; injection Hk as <-; injection Hr as <-; reflexivity|]). destruct k; discriminate.
    - assert (Z0 : is_addr 0) by (unfold is_addr; change W with 18446744073709551616; lia).
      intros u Hu. cbn in Hu. repeat (destruct Hu as [Hu|Hu]; [injection Hu as <-; assumption|]). destruct Hu. }
  split; [unfold is_addr; change W with 18446744073709551616; cbn; lia|]. split; [reflexivity|]. split; [vm_compute; split; discriminate|]. split; [|vm_compute; reflexivity].
  intros x Hx. unfold entry_mem, store at 1. destruct (Z.leb_spec 131048 x); cbn [andb]; [|reflexivity]. destruct (Z.ltb_spec x (131048 + 8)); [|reflexivity].
  exfalso. cbn [w_heap dyn_world file_world] in Hx. unfold dyn_heap in Hx. apply orb_prop in Hx as [Hx|Hx]; [apply sample_heap_ok in Hx; lia|]. apply andb_prop in Hx as [H1 H2]. apply Z.leb_le in H1.
  set (k := link_fun dyn_file "clara_sub.int.int") in *. vm_compute in k. subst k. lia.
Qed.
(** The closure called with 12 gives 42; sub called with 50 and 8 gives 42. *)
Example C61_closure_example : exists rs' m' fl',
  GenWorld.runs dyn_world (MState dyn_entry (dyn_regs 5000 (wint 12) 0, entry_mem dyn_h, None)) (MState 4 (rs', m', fl')) /\ rs' rax = wint 42.
Proof.
  assert (A : is_addr 5000 /\ is_addr (wint 12) /\ is_addr 0) by (vm_compute; repeat split; congruence).
  pose proof (C61_closures_are_called_partial dyn_world dyn_loaded dyn_has 30 0 5000 (wint 12) 0 0 0 0 dyn_h "clara_lambda" f_lambda dyn_entry _ _ None 4 ltac:(lia)
    (dyn_at 5000 (wint 12) 0 (proj1 A) (proj1 (proj2 A)) (proj2 (proj2 A))) ltac:(vm_compute; reflexivity) ltac:(vm_compute; reflexivity) ltac:(vm_compute; reflexivity) ltac:(vm_compute; reflexivity)
    ltac:(vm_compute; reflexivity) ltac:(vm_compute; reflexivity) eq_refl) as H.
  unfold does_as, behaves, ends in H.
  match type of H with match ?e with _ => _ end =>
    assert (X : match e with Val (Some x, _) => x =? wint 42 | _ => false end = true) by (vm_compute; reflexivity); destruct e as [[[x|] h']|? ? ?| | |]; try discriminate X end.
  apply Z.eqb_eq in X. subst x. destruct H as (st & R & rs' & m' & fl' & -> & [V _] & _). exists rs', m', fl'. auto.
Qed.
Example C61_function_example : exists rs' m' fl',
  GenWorld.runs dyn_world (MState dyn_entry (dyn_regs (link_fun dyn_file "clara_sub.int.int") (wint 50) (wint 8), entry_mem dyn_h, None)) (MState 4 (rs', m', fl')) /\ rs' rax = wint 42.
Proof.
  assert (A : is_addr (link_fun dyn_file "clara_sub.int.int") /\ is_addr (wint 50) /\ is_addr (wint 8)) by (vm_compute; repeat split; congruence).
  pose proof (C61_functions_are_called_partial dyn_world dyn_loaded dyn_has 30 0 (link_fun dyn_file "clara_sub.int.int") (wint 50) (wint 8) 0 0 0 dyn_h "clara_sub.int.int" f_sub dyn_entry _ _ None 4 ltac:(lia)
    (dyn_at _ _ _ (proj1 A) (proj1 (proj2 A)) (proj2 (proj2 A))) ltac:(vm_compute; reflexivity) ltac:(vm_compute; reflexivity)
    ltac:(vm_compute; reflexivity) ltac:(vm_compute; reflexivity) eq_refl) as H.
  unfold does_as, behaves, ends in H.
  match type of H with match ?e with _ => _ end =>
    assert (X : match e with Val (Some x, _) => x =? wint 42 | _ => false end = true) by (vm_compute; reflexivity); destruct e as [[[x|] h']|? ? ?| | |]; try discriminate X end.
  apply Z.eqb_eq in X. subst x. destruct H as (st & R & rs' & m' & fl' & -> & [V _] & _). exists rs', m', fl'. auto.
Qed.
