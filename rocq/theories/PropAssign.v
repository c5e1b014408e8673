(** Assignments in generated code: theorems for property C63 (more of it is in PropCheck.v). *)
From Coq Require Import ZArith List Bool String Lia.
From Verif Require Import Ints X86 GenModel GenProgram GenSpec GenMem GenStatic GenSlots GenExec GenCorrect GenWorld GenProps GenLink GenSample GenAssign GenPlaces.
Import ListNotations.
Open Scope Z_scope.

(* --- C63 *)

(** An assignment to a variable: the variable has the value; the other variables, the heap and
    the caller's part of the stack are as they were after the value was computed. *)
Theorem C63_variables_are_assigned : forall w, loaded w ->
  forall N d slot ext T B r h s c s' n q rs m fl t x e v h1,
  gen_stmt slot ext (SAs (EVar t x) e) s = Some (c, s') -> code_at (w_code w) n c -> lits_in w s' ->
  safe 0 e = true -> regs_in_use s = 0%nat -> g_sp s = T -> (forall y, In y (x :: expr_vars e) -> slot y <> 0) ->
  inside w slot T B T [] r h rs m -> stack_left w d (Z.max (pushes e) 1) rs ->
  w_place w (if ext then load m (B + 8) else word (load m (B + 8) + 8)) = Some q ->
  ev w N d r h e = Val (Some v, h1) ->
  exists rs' m' fl', runs w (MState n (rs, m, fl)) (MState (n + List.length c) (rs', m', fl')) /\ stack_kept w B m m' /\
    inside w slot T B T [] (env_set r x v) h1 rs' m' /\ load m' (B - slot x) = v /\
    (forall y u, y <> x -> r y = Some u -> load m' (B - slot y) = u) /\
    (forall a, w_heap w a = true -> m' a = h1 a).
Proof. exact var_write. Qed.
Print Assumptions C63_variables_are_assigned.

(** An assignment to an element with an index inside the array: the element has the value,
    every other byte of the heap is as it was after value, array and index were computed, in
    this order.  (Fields: C35_field_write.) *)
Theorem C63_elements_are_assigned : forall w, loaded w ->
  forall N d slot ext T B r h s c s' n q rs m fl t l i e v h1 p h2 iw h3,
  gen_stmt slot ext (SAs (EIndex t l i) e) s = Some (c, s') -> code_at (w_code w) n c -> lits_in w s' ->
  safe_stmt (SAs (EIndex t l i) e) = true -> regs_in_use s = 0%nat -> g_sp s = T ->
  (forall x, In x (stmt_vars (SAs (EIndex t l i) e)) -> slot x <> 0) ->
  inside w slot T B T [] r h rs m -> stack_left w d (pushes_stmt (SAs (EIndex t l i) e)) rs ->
  w_place w (if ext then load m (B + 8) else word (load m (B + 8) + 8)) = Some q ->
  ev w (S N) d r h e = Val (Some v, h1) -> ev w N d r h1 l = Val (Some p, h2) -> ev w N d r h2 i = Val (Some iw, h3) -> is_addr v ->
  ok8 (w_heap w) p = true -> 0 <= ival iw < ival (load h3 p) -> ok8 (w_heap w) (elem p (ival iw)) = true ->
  exists rs' m' fl', runs w (MState n (rs, m, fl)) (MState (n + List.length c) (rs', m', fl')) /\ stack_kept w B m m' /\
    inside w slot T B T [] r (store h3 (elem p (ival iw)) v) rs' m' /\ load m' (elem p (ival iw)) = v /\
    (forall a, w_heap w a = true -> a < elem p (ival iw) \/ elem p (ival iw) + 8 <= a -> m' a = h3 a).
Proof. exact elem_write. Qed.
Print Assumptions C63_elements_are_assigned.

(** An assignment to a call, which is accepted (C63_accepted_assignments_have_places_refuted):
    the first word of the object that the call returns is overwritten, its first field or the
    length of the array; no variable changes. *)
Theorem C63_calls_are_not_overwritten_refuted : forall w, loaded w ->
  forall N d slot ext T B r h s c s' n rs m fl t fi f args e v h1 p h2,
  gen_stmt slot ext (SAs (ECall t fi f args) e) s = Some (c, s') -> code_at (w_code w) n c -> lits_in w s' ->
  safe 0 e = true -> safe 0 (ECall t fi f args) = true -> regs_in_use s = 0%nat -> g_sp s = T ->
  inside w slot T B T [] r h rs m -> stack_left w d (Z.max (pushes e) (1 + pushes (ECall t fi f args))) rs ->
  ev w N d r h e = Val (Some v, h1) -> ev w N d r h1 (ECall t fi f args) = Val (Some p, h2) -> is_addr v -> ok8 (w_heap w) p = true ->
  exists rs' m' fl', runs w (MState n (rs, m, fl)) (MState (n + List.length c) (rs', m', fl')) /\ stack_kept w B m m' /\
    inside w slot T B T [] r (store h2 p v) rs' m' /\ load m' p = v /\
    (forall a, w_heap w a = true -> a < p \/ p + 8 <= a -> m' a = h2 a).
Proof. exact call_write. Qed.
Print Assumptions C63_calls_are_not_overwritten_refuted.

(** fn same(p: pair) pair = p
    fn over(p: pair, q: pair) { same(p) = q }
    fn put(a: []int, n: int) { a[n] = n }
    fn move(p: pair, q: pair) { p = q } *)
Definition f_same : fundef := Fun "clara_same.pair" [(0%nat, t_pair)] (BExpr (EVar t_pair 0)) TStruct false.
Definition over_lhs : expr := ECall t_pair (FnInfo false false false TStruct) "clara_same.pair" [EVar t_pair 0].
Definition over_stmt : stmt := SAs over_lhs (EVar t_pair 1).
Definition f_over : fundef := Fun "clara_over.pair.pair" [(0%nat, t_pair); (1%nat, t_pair)] (BBlock [over_stmt]) TNothing false.
Definition put_stmt : stmt := SAs (EIndex t_int (EVar t_array 0) (v 1)) (v 1).
Definition f_put : fundef := Fun "clara_put.array.int" [(0%nat, t_array); (1%nat, t_int)] (BBlock [put_stmt]) TNothing false.
Definition move_stmt : stmt := SAs (EVar t_pair 0) (EVar t_pair 1).
Definition f_move : fundef := Fun "clara_move.pair.pair" [(0%nat, t_pair); (1%nat, t_pair)] (BBlock [move_stmt]) TNothing false.
Definition asg_prog : list fundef := [f_same; f_over; f_put; f_move].
Notation asg_out := (gen_program sample_unq "clara_claralloc" "clara_ioob.int.int" "clara_main" [] asg_prog start) (only parsing).
Definition asg_file : list event := Eval vm_compute in match asg_out with Some (P, _) => P | None => [] end.
Definition asg_lits : list (list Z) := Eval vm_compute in match asg_out with Some (_, s) => g_lits s | None => [] end.
Definition asg_world : world :=
  file_world asg_file asg_lits (fun _ _ => None) (String.eqb "clara_claralloc") sample_heap (fun _ _ _ => None) (fun _ _ _ => None)
    "clara_claralloc" asg_prog 65536 131072 1024 256.
Lemma asg_loaded : loaded asg_world.
Proof.
  assert (X : exists s, asg_out = Some (asg_file, s) /\ asg_lits = g_lits s).
  { destruct asg_out as [[P s]|] eqn:E; [|vm_compute in E; discriminate]. exists s.
    assert (H1 : Some P = Some asg_file) by (transitivity (option_map fst asg_out); [now rewrite E|vm_compute; reflexivity]).
    assert (H2 : Some (g_lits s) = Some asg_lits) by (transitivity (option_map (fun x => g_lits (snd x)) asg_out); [now rewrite E|vm_compute; reflexivity]).
    injection H1 as <-. injection H2 as <-. split; reflexivity. }
  destruct X as (s & E & El). unfold asg_world. rewrite El.
  eapply (file_loaded sample_unq "clara_claralloc" "clara_ioob.int.int" "clara_main" [] asg_prog asg_file s); try exact E; try lia.
  - nodup_strings.
  - constructor.
  - apply Z.ltb_lt. vm_compute. reflexivity.
  - exact sample_heap_ok.
  - apply incl_refl.
  - intros fd Hfd. repeat (destruct Hfd as [<-|Hfd]; [vm_compute; split; [reflexivity|discriminate]|]). destruct Hfd.
  - discriminate.
  - discriminate.
Qed.
Definition body_state (s : gst) : gst := Gst 2 [] [] [] [] 0 (g_lab s) [].
(** ... with the two parameters as roots. *)
Definition pairs_state : gst := Gst 2 [] [] [(8, t_pair); (16, t_pair)] [] 0 (g_lab start) [].
Definition asg_fn (f : string) : nat := match find_fn asg_file f with Some n => n | None => 0%nat end.
Definition size (s : gst) (st : stmt) : nat := List.length (match gen_stmt two_slots false st s with Some (c, _) => c | None => [] end).
Lemma asg_inside h a b : is_addr a -> is_addr b -> inside asg_world two_slots 2 131040 2 [] (two_vars a b) h body_regs (body_mem h a b).
Proof. exact (body_inside h a b). Qed.
(** At 5000 and 5016 are pairs. *)
Definition pairs_mem : memory := store (store (store (store zero 5000 (wint 7)) 5008 (wint 9)) 5016 (wint 11)) 5024 (wint 13).
(** same(p) = q: the first field of p is a pointer to q now. *)
Example C63_call_example : exists rs' m' fl',
  runs asg_world (MState (asg_fn "clara_over.pair.pair" + 4) (body_regs, body_mem pairs_mem 5000 5016, None))
    (MState (asg_fn "clara_over.pair.pair" + 4 + size pairs_state over_stmt) (rs', m', fl')) /\
  load m' 5000 = 5016 /\ load pairs_mem 5000 = wint 7 /\ load m' (131040 - 8) = 5000.
Proof.
  unfold size. destruct (gen_stmt two_slots false over_stmt pairs_state) as [[c s']|] eqn:E; [|vm_compute in E; discriminate].
  destruct (C63_calls_are_not_overwritten_refuted asg_world asg_loaded 8 1 two_slots false 2 131040 (two_vars 5000 5016) pairs_mem pairs_state c s'
    (asg_fn "clara_over.pair.pair" + 4) body_regs (body_mem pairs_mem 5000 5016) None t_pair (FnInfo false false false TStruct) "clara_same.pair" [EVar t_pair 0] (EVar t_pair 1)
    5016 pairs_mem 5000 pairs_mem) as (rs' & m' & fl' & H1 & _ & H2 & H3 & _); try reflexivity; auto.
  - apply code_is. vm_compute in E. injection E as <- _. vm_compute. reflexivity.
  - intros k x Hk. vm_compute in E. injection E as _ <-. destruct k; discriminate Hk.
  - apply asg_inside; vm_compute; split; congruence.
  - vm_compute. discriminate.
  - vm_compute. split; congruence.
  - exists rs', m', fl'. split; [exact H1|]. split; [exact H3|]. split; [vm_compute; reflexivity|].
    exact (proj2 (proj2 (iv_env _ _ _ _ _ _ _ _ _ _ _ _ H2 0%nat 5000 eq_refl))).
Qed.
(** a[1] = 1 in an array of three elements. *)
Definition three_mem : memory := store (store zero 5000 (wint 3)) 5024 (wint 9).
Example C63_element_example : exists rs' m' fl',
  runs asg_world (MState (asg_fn "clara_put.array.int" + 4) (body_regs, body_mem three_mem 5000 (wint 1), None))
    (MState (asg_fn "clara_put.array.int" + 4 + size (body_state start) put_stmt) (rs', m', fl')) /\ load m' 5016 = wint 1 /\ load m' 5024 = wint 9.
Proof.
  unfold size. destruct (gen_stmt two_slots false put_stmt (body_state start)) as [[c s']|] eqn:E; [|vm_compute in E; discriminate].
  destruct (C63_elements_are_assigned asg_world asg_loaded 5 1 two_slots false 2 131040 (two_vars 5000 (wint 1)) three_mem (body_state start) c s'
    (asg_fn "clara_put.array.int" + 4) 4 body_regs (body_mem three_mem 5000 (wint 1)) None t_int (EVar t_array 0) (v 1) (v 1) (wint 1) three_mem 5000 three_mem (wint 1) three_mem)
    as (rs' & m' & fl' & H1 & _ & _ & H2 & H3); try reflexivity; auto.
  - apply code_is. vm_compute in E. injection E as <- _. vm_compute. reflexivity.
  - intros k x Hk. vm_compute in E. injection E as _ <-. destruct k; discriminate Hk.
  - intros x Hx. vm_compute in Hx. destruct Hx as [<-|[<-|[<-|[]]]]; vm_compute; discriminate.
  - apply asg_inside; vm_compute; split; congruence.
  - vm_compute. discriminate.
  - vm_compute. split; congruence.
  - vm_compute. split; congruence.
  - exists rs', m', fl'. split; [exact H1|]. split; [exact H2|]. transitivity (load three_mem 5024); [|vm_compute; reflexivity].
    apply load_ext. intros j Hj. apply H3; [|right; vm_compute elem; lia]. change (sample_heap (5024 + j) = true). unfold sample_heap. apply andb_true_intro. split; [apply Z.leb_le|apply Z.ltb_lt]; lia.
Qed.
(** p = q *)
Example C63_variable_example : exists rs' m' fl',
  runs asg_world (MState (asg_fn "clara_move.pair.pair" + 4) (body_regs, body_mem pairs_mem 5000 5016, None))
    (MState (asg_fn "clara_move.pair.pair" + 4 + size (body_state start) move_stmt) (rs', m', fl')) /\ load m' (131040 - 8) = 5016 /\ load m' (131040 - 16) = 5016.
Proof.
  unfold size. destruct (gen_stmt two_slots false move_stmt (body_state start)) as [[c s']|] eqn:E; [|vm_compute in E; discriminate].
  destruct (C63_variables_are_assigned asg_world asg_loaded 5 1 two_slots false 2 131040 (two_vars 5000 5016) pairs_mem (body_state start) c s'
    (asg_fn "clara_move.pair.pair" + 4) 4 body_regs (body_mem pairs_mem 5000 5016) None t_pair 0%nat (EVar t_pair 1) 5016 pairs_mem)
    as (rs' & m' & fl' & H1 & _ & _ & H2 & H3 & _); try reflexivity; auto.
  - apply code_is. vm_compute in E. injection E as <- _. vm_compute. reflexivity.
  - intros k x Hk. vm_compute in E. injection E as _ <-. destruct k; discriminate Hk.
  - intros x Hx. vm_compute in Hx. destruct Hx as [<-|[<-|[]]]; vm_compute; discriminate.
  - apply asg_inside; vm_compute; split; congruence.
  - vm_compute. discriminate.
  - exists rs', m', fl'. split; [exact H1|]. split; [exact H2|]. exact (H3 1%nat 5016 ltac:(discriminate) eq_refl).
Qed.
