(** Proofs about calls of function values. *)
From Coq Require Import ZArith List Bool String Lia.
From Verif Require Import Ints X86 GenModel GenSpec GenMem GenStatic GenSlots GenExec GenCorrect GenWorld GenProps GenTail DynModel.
Import ListNotations.
Open Scope Z_scope.
Local Arguments Z.mul : simpl never. Local Arguments Z.add : simpl never. Local Arguments Z.sub : simpl never.
Local Arguments word : simpl never. Local Arguments load : simpl never. Local Arguments wint : simpl never.
Local Arguments ival : simpl never. Local Arguments Z.testbit : simpl never. Local Arguments ok8 : simpl never.
Local Arguments iand : simpl never. Local Arguments sem_cmp : simpl never.

(** Bit 1 of the int in a word is bit 2 of the word. *)
Lemma bit_of_int w : is_addr w -> sem_cmp Eq (ival (wint (iand (ival w) (ival (wint 2))))) (ival (wint 0)) = negb (Z.testbit w 2).
Proof.
  intros H. change (ival (wint 2)) with 2. change (ival (wint 0)) with 0. rewrite ival_wint.
  assert (E : iand (ival w) 2 = if Z.testbit w 2 then 2 else 0).
  { unfold iand. apply Z.bits_inj'. intros k Hk. rewrite Z.land_spec.
    assert (B : Z.testbit (ival w) 1 = Z.testbit w 2).
    { unfold ival. change 2 with (2 ^ 1) at 1. rewrite Z.div_pow2_bits by lia. change (1 + 1) with 2.
      unfold signed, word. change W63 with 9223372036854775808. change W with 18446744073709551616.
      unfold is_addr in H. change W with 18446744073709551616 in H. rewrite Z.mod_small by lia.
      destruct (w <? 9223372036854775808); [reflexivity|]. rewrite !Z.testbit_eqb by lia. change (2 ^ 2) with 4.
      replace (w - 18446744073709551616) with (w + (-4611686018427387904) * 4) by lia. rewrite Z.div_add by lia.
      replace (w / 4 + -4611686018427387904) with (w / 4 + (-2305843009213693952) * 2) by lia. rewrite Z.mod_add by lia. reflexivity. }
    destruct (Z.eq_dec k 1) as [->|N].
    - rewrite B. destruct (Z.testbit w 2); reflexivity.
    - assert (T2 : Z.testbit 2 k = false) by (apply (Z.pow2_bits_false 1 k); lia).
      rewrite T2, andb_false_r. destruct (Z.testbit w 2); [now rewrite T2|now rewrite Z.bits_0]. }
  rewrite E. destruct (Z.testbit w 2); reflexivity.
Qed.

Tactic Notation "fuel" ident(n) integer(k) := do k (destruct n as [|n]; [lia|]).

Section Dyn.
Variable w : world.
Hypothesis Hd : has_dynamic w.
Notation TAIL_LIST := (tail_list (w_heap w) (w_lit w) (w_fun_addr w) (w_fun_at w) (w_extern w) (w_abstract w) (w_alloc w) (w_prog w)).

Lemma found fd : In fd dyn_functions -> find_fun (w_prog w) (f_name fd) = Some fd.
Proof. apply Hd. Qed.

Notation APPLY := (apply (w_heap w) (w_lit w) (w_fun_addr w) (w_fun_at w) (w_extern w) (w_abstract w) (w_alloc w) (w_prog w)).
Notation EXEC := (exec_stmt (w_heap w) (w_lit w) (w_fun_addr w) (w_fun_at w) (w_extern w) (w_abstract w) (w_alloc w) (w_prog w)).
Notation ADDR := (eval_addr (w_heap w) (w_lit w) (w_fun_addr w) (w_fun_at w) (w_extern w) (w_abstract w) (w_alloc w) (w_prog w)).
Notation CALL_PTR := (call_ptr (w_heap w) (w_lit w) (w_fun_addr w) (w_fun_at w) (w_extern w) (w_abstract w) (w_alloc w) (w_prog w)).
(** One step of the interpreter at a time. *)
Lemma call_eq n d r h t fi f args : ev w (S n) d r h (ECall t fi f args) = bind (ev_args w n d r h args) (fun '(vs, h) => APPLY n d fi f args vs h).
Proof. reflexivity. Qed.
Lemma apply_eq n d k f args vs h : APPLY (S n) d (own k) f args vs h = ev_call w n d f vs h.
Proof. reflexivity. Qed.
Lemma args_nil n d r h : ev_args w (S n) d r h [] = Val ([], h).
Proof. reflexivity. Qed.
Lemma args_eq n d r h a l : ev_args w (S n) d r h (a :: l) =
  bind (ev w n d r h a) (fun '(v, h) => bind (ev_args w n d r h l) (fun '(vs, h) => Val (v :: vs, h))).
Proof. reflexivity. Qed.
Lemma var_eq n d r h t x : ev w (S n) d r h (EVar t x) = match r x with Some v => Val (Some v, h) | None => Stuck end.
Proof. reflexivity. Qed.
Lemma lit_eq n d r h t z : ev w (S n) d r h (ELitInt t z) = Val (Some (wint z), h).
Proof. reflexivity. Qed.
Lemma off_eq n d r h t z : ev w (S n) d r h (EOff t z) = Val (Some (word z), h).
Proof. reflexivity. Qed.
Lemma dot_eq n d r h t l f : ev w (S (S n)) d r h (EDot t l f) =
  bind (need (ev w n d r h l) (fun a h => need (ev w n d r h f) (fun b h => Val (word (a + b), h)))) (fun '(a, h) =>
    if ok8 (w_heap w) a then Val (Some (load h a), h) else Stuck).
Proof. reflexivity. Qed.
Lemma and_eq n d r h t a b : ev w (S n) d r h (EArith t BAnd a b) =
  need (ev w n d r h a) (fun a h => need (ev w n d r h b) (fun b h => Val (Some (wint (iand (ival a) (ival b))), h))).
Proof. reflexivity. Qed.
Lemma cmp_eq n d r h t a b : ev w (S n) d r h (ECmp t Eq a b) =
  need (ev w n d r h a) (fun a h => need (ev w n d r h b) (fun b h => Val (Some (wbool (sem_cmp Eq (ival a) (ival b))), h))).
Proof. reflexivity. Qed.
Lemma list_eq n d r h st l : ev_list w (S n) d r h (st :: l) =
  bind (EXEC n d r h st) (fun '(o, r, h) => match o with ONormal => ev_list w n d r h l | OReturn v => Val (OReturn v, r, h) end).
Proof. reflexivity. Qed.
Lemma das_eq n d r h x t e : EXEC (S n) d r h (SDas x t e) = need (ev w n d r h e) (fun v h => Val (ONormal, env_set r x v, h)).
Proof. reflexivity. Qed.
Lemma ret_eq n d r h e : EXEC (S n) d r h (SReturn (Some e)) = bind (ev w n d r h e) (fun '(v, h) => Val (OReturn v, r, h)).
Proof. reflexivity. Qed.
Lemma block_eq n d fd vs h b : f_body fd = BBlock b -> ev_fun w (S n) (S d) fd vs h =
  bind (ev_list w n d (bind_params (f_params fd) vs) h b) (fun '(o, _, h) =>
    match o with OReturn v => Val (v, h) | ONormal => if kind_eqb (f_ret fd) TNothing then Val (None, h) else Stuck end).
Proof. intros E. unfold ev_fun. cbn [run_fun]. rewrite E. reflexivity. Qed.
Lemma call_fun_eq n d f vs h fd : find_fun (w_prog w) f = Some fd -> f_extret fd = false -> ev_call w (S n) d f vs h = ev_fun w n d fd vs h.
Proof. intros E X. unfold ev_call. cbn [call_fun]. rewrite E, X. reflexivity. Qed.

Lemma expr_eq n d fd vs h e : f_body fd = BExpr e -> ev_fun w (S n) (S d) fd vs h = ev w n d (bind_params (f_params fd) vs) h e.
Proof. intros E. unfold ev_fun. cbn [run_fun]. rewrite E. reflexivity. Qed.
Lemma type_eq n d r h t : ev w (S n) d r h (EType t) = Val (None, h).
Proof. reflexivity. Qed.
Lemma unsafe_eq n d k args p i vs h : APPLY (S n) d (FnInfo true false false k) "unsafe" args (Some p :: Some i :: vs) h = Val (Some (word (p + ival i)), h).
Proof.
  assert (E : APPLY (S n) d (FnInfo true false false k) "unsafe" args (Some p :: Some i :: vs) h =
    match w_extern w "unsafe" (Some p :: Some i :: vs) h with None => Stuck | Some (v, h) => Val (v, h) end) by reflexivity.
  rewrite E, (proj2 Hd). reflexivity.
Qed.

Lemma unsafe_lit n d r h t x p z : (8 <= n)%nat -> r x = Some p ->
  ev w n d r h (unsafe_call t (EVar ty_pointer x) (ELitInt ty_int z)) = Val (Some (word (p + ival (wint z))), h).
Proof.
  intros Hn Hr. fuel n 8. unfold unsafe_call. rewrite call_eq, args_eq, var_eq, Hr. cbn [bind]. rewrite args_eq, lit_eq. cbn [bind].
  rewrite args_eq, type_eq. cbn [bind]. rewrite args_nil. cbn [bind]. apply unsafe_eq.
Qed.
Lemma unsafe_var n d r h t x y p o : (8 <= n)%nat -> r x = Some p -> r y = Some o ->
  ev w n d r h (unsafe_call t (EVar ty_pointer x) (EVar ty_int y)) = Val (Some (word (p + ival o)), h).
Proof.
  intros Hn Hr Hy. fuel n 8. unfold unsafe_call. rewrite call_eq, args_eq, var_eq, Hr. cbn [bind]. rewrite args_eq, var_eq, Hy. cbn [bind].
  rewrite args_eq, type_eq. cbn [bind]. rewrite args_nil. cbn [bind]. apply unsafe_eq.
Qed.

Lemma run_raw n d p h : (10 <= n)%nat -> ev_call w n (S d) "clara_toRawInt.pointer" [Some p] h = Val (Some (word p), h).
Proof.
  intros Hn. fuel n 2. rewrite (call_fun_eq _ _ _ _ _ to_raw_int) by (first [reflexivity|apply (found to_raw_int); cbn; tauto]).
  rewrite (expr_eq _ _ to_raw_int _ _ _ eq_refl). erewrite unsafe_lit; [|lia|reflexivity]. change (ival (wint 0)) with 0. now rewrite Z.add_0_r.
Qed.
Lemma run_inc n d p o h : (10 <= n)%nat -> ev_call w n (S d) "clara_inc.pointer.int" [Some p; Some o] h = Val (Some (word (p + ival o)), h).
Proof.
  intros Hn. fuel n 2. rewrite (call_fun_eq _ _ _ _ _ inc_pointer) by (first [reflexivity|apply (found inc_pointer); cbn; tauto]).
  rewrite (expr_eq _ _ inc_pointer _ _ _ eq_refl). erewrite unsafe_var; [|lia|reflexivity|reflexivity]. reflexivity.
Qed.

Lemma env_same r x v : env_set r x v x = Some v.
Proof. unfold env_set. now rewrite Nat.eqb_refl. Qed.
Definition is_closure_at (h : memory) (p : Z) : Z := wbool (negb (marked_read_only h p)).
Lemma run_is_closure n d p h : (24 <= n)%nat -> header_in_memory w p ->
  ev_fun w n (S (S d)) is_closure [Some p] h = Val (Some (is_closure_at h p), h).
Proof.
  intros Hn Hh. fuel n 1. rewrite (block_eq _ _ is_closure _ _ _ eq_refl).
  set (r0 := bind_params (f_params is_closure) [Some p]). assert (Hr : r0 0%nat = Some p) by reflexivity. clearbody r0.
  fuel n 1. rewrite list_eq. fuel n 1. rewrite das_eq.
  fuel n 1. rewrite call_eq. fuel n 1. rewrite args_eq. fuel n 2. rewrite dot_eq. fuel n 1. rewrite call_eq. fuel n 1. rewrite args_eq.
  fuel n 1. rewrite var_eq, Hr. cbn [bind].
  rewrite args_eq. fuel n 1. rewrite lit_eq. cbn [bind]. fuel n 1. rewrite args_nil. cbn [bind].
  rewrite apply_eq, run_inc by lia. cbn [bind need]. rewrite off_eq. cbn [bind need].
  change (ival (wint (-8))) with (-8). change (word 0) with 0.
  replace (word (word (p + -8) + 0)) with (word (p - 8)) by (rewrite Z.add_0_r; unfold word; rewrite Zmod_mod; reflexivity).
  rewrite Hh. cbn [bind]. rewrite args_nil. cbn [bind]. rewrite apply_eq, run_raw by lia. cbn [need bind].
  rewrite list_eq, ret_eq, cmp_eq, and_eq, var_eq, env_same. cbn [need bind]. rewrite !lit_eq. cbn [need bind]. rewrite lit_eq. cbn [need bind].
  unfold is_closure_at, marked_read_only. rewrite bit_of_int.
  - rewrite (word_id _ (load_range _ _)). reflexivity.
  - rewrite (word_id _ (load_range _ _)). apply load_range.
Qed.

Definition dyn_vals (a1 a2 a3 a4 a5 : Z) : list value := [Some a1; Some a2; Some a3; Some a4; Some a5].
Lemma dyn_args_eval n d r h a1 a2 a3 a4 a5 : (7 <= n)%nat ->
  r 1%nat = Some a1 -> r 2%nat = Some a2 -> r 3%nat = Some a3 -> r 4%nat = Some a4 -> r 5%nat = Some a5 ->
  ev_args w n d r h dyn_args = Val (dyn_vals a1 a2 a3 a4 a5, h).
Proof.
  intros Hn H1 H2 H3 H4 H5. fuel n 7. unfold dyn_args. cbn [map].
  rewrite args_eq, var_eq, H1. cbn [bind]. rewrite args_eq, var_eq, H2. cbn [bind]. rewrite args_eq, var_eq, H3. cbn [bind].
  rewrite args_eq, var_eq, H4. cbn [bind]. rewrite args_eq, var_eq, H5. cbn [bind]. rewrite args_nil. reflexivity.
Qed.
Notation TAIL_IF := (tail_if (w_heap w) (w_lit w) (w_fun_addr w) (w_fun_at w) (w_extern w) (w_abstract w) (w_alloc w) (w_prog w)).
Lemma tail_expr_eq n d r h e : TAIL_LIST (S n) d r h [SExpr e] = ev w n d r h e.
Proof. reflexivity. Qed.
Lemma tail_if_list n d r h bs : TAIL_LIST (S n) d r h [SIf bs] = TAIL_IF n d r h bs.
Proof. reflexivity. Qed.
Lemma tail_das n d r h x t e l : TAIL_LIST (S n) d r h (SDas x t e :: l) =
  bind (EXEC n d r h (SDas x t e)) (fun '(o, r, h) => match o with ONormal => TAIL_LIST n d r h l | OReturn _ => Stuck end).
Proof. reflexivity. Qed.
Lemma tail_if_some n d r h c b l : TAIL_IF (S n) d r h ((Some c, b) :: l) =
  need (ev w n d r h c) (fun v h => match as_bool v with None => Stuck | Some true => TAIL_LIST n d r h b | Some false => TAIL_IF n d r h l end).
Proof. reflexivity. Qed.
Lemma tail_if_none n d r h b : TAIL_IF (S n) d r h [(None, b)] = TAIL_LIST n d r h b.
Proof. reflexivity. Qed.
Lemma call_expr_eq n d r h t fi e args : ev w (S n) d r h (ECallExpr t fi e args) =
  need (ev w n d r h e) (fun v h => bind (ev_args w n d r h args) (fun '(vs, h) => CALL_PTR n d fi v vs h)).
Proof. reflexivity. Qed.
Lemma call_var_eq n d r h t fi x args : ev w (S n) d r h (ECallVar t fi x args) =
  bind (ev_args w n d r h args) (fun '(vs, h) => match r x with None => Stuck | Some v => CALL_PTR n d fi v vs h end).
Proof. reflexivity. Qed.
Lemma call_ptr_eq n d k a vs h f g : w_fun_at w a = Some f -> find_fun (w_prog w) f = Some g -> f_extret g = false ->
  CALL_PTR (S (S n)) d (own k) a vs h = ev_fun w n d g vs h.
Proof.
  intros H1 H2 H3. assert (E : CALL_PTR (S (S n)) d (own k) a vs h = match w_fun_at w a with None => Stuck | Some f =>
    match find_fun (w_prog w) f with None => Stuck | Some _ => ev_call w (S n) d f vs h end end) by reflexivity.
  rewrite E, H1, H2. apply call_fun_eq; assumption.
Qed.
Lemma env_other r x y v : x <> y -> env_set r x v y = r y.
Proof. intros H. unfold env_set. destruct (Nat.eqb_spec x y); [contradiction|reflexivity]. Qed.

Notation TAIL_RUN := (tail_run (w_heap w) (w_lit w) (w_fun_addr w) (w_fun_at w) (w_extern w) (w_abstract w) (w_alloc w) (w_prog w)).
Lemma tail_run_eq n d vs h : TAIL_RUN n (S d) invoke_dynamic vs h =
  TAIL_LIST n d (bind_params (f_params invoke_dynamic) vs) h (match f_body invoke_dynamic with BBlock b => b | _ => [] end).
Proof. reflexivity. Qed.

Lemma word_0 p : word (p + ival (wint 0)) = word p.
Proof. change (ival (wint 0)) with 0. now rewrite Z.add_0_r. Qed.
Lemma word_word p z : word (word p + word z) = word (p + z).
Proof. unfold word. now rewrite <- Zplus_mod. Qed.

Lemma dyn_closure n d p a1 a2 a3 a4 a5 h f g : (30 <= n)%nat ->
  header_in_memory w p -> marked_read_only h p = false ->
  ok8 (w_heap w) (word p) = true -> ok8 (w_heap w) (word (p + 8)) = true ->
  w_fun_at w (load h (word p)) = Some f -> find_fun (w_prog w) f = Some g -> f_extret g = false ->
  TAIL_RUN (7 + n) (S (S (S d))) invoke_dynamic (Some p :: dyn_vals a1 a2 a3 a4 a5) h =
  ev_fun w n (S (S d)) g (Some (load h (word (p + 8))) :: dyn_vals a1 a2 a3 a4 a5) h.
Proof.
  intros Hn Hh Hm Ho Ho8 Hf Hg Hx. rewrite tail_run_eq. cbn [f_body invoke_dynamic].
  set (r0 := bind_params (f_params invoke_dynamic) (Some p :: dyn_vals a1 a2 a3 a4 a5)).
  assert (R0 : r0 0%nat = Some p) by reflexivity. assert (R1 : r0 1%nat = Some a1) by reflexivity. assert (R2 : r0 2%nat = Some a2) by reflexivity.
  assert (R3 : r0 3%nat = Some a3) by reflexivity. assert (R4 : r0 4%nat = Some a4) by reflexivity. assert (R5 : r0 5%nat = Some a5) by reflexivity.
  clearbody r0. cbn [Nat.add]. rewrite tail_if_list, tail_if_some, call_eq, args_eq, var_eq, R0. cbn [bind].
  fuel n 1. rewrite args_nil. cbn [bind]. rewrite apply_eq.
  rewrite (call_fun_eq _ _ _ _ _ is_closure) by (first [reflexivity|apply (found is_closure); cbn; tauto]).
  rewrite run_is_closure by (first [lia|assumption]). cbn [need bind]. unfold is_closure_at. rewrite Hm. cbn [negb wbool as_bool Z.eqb Pos.eqb].
  rewrite tail_das, das_eq. erewrite unsafe_lit; [|lia|exact R0]. cbn [need bind]. rewrite word_0.
  rewrite tail_expr_eq, call_expr_eq. fuel n 2. rewrite dot_eq, var_eq, env_same. cbn [need bind]. rewrite off_eq. cbn [need bind].
  rewrite word_word, Z.add_0_r, Ho. cbn [need bind].
  rewrite args_eq, dot_eq, var_eq, env_same. cbn [need bind]. rewrite off_eq. cbn [need bind]. rewrite word_word, Ho8. cbn [bind].
  erewrite dyn_args_eval; [|lia|rewrite env_other by discriminate; eassumption..]. cbn [bind].
  eapply call_ptr_eq; eassumption.
Qed.

Lemma dyn_function n d p a1 a2 a3 a4 a5 h f g : (30 <= n)%nat -> is_addr p ->
  header_in_memory w p -> marked_read_only h p = true ->
  w_fun_at w p = Some f -> find_fun (w_prog w) f = Some g -> f_extret g = false ->
  TAIL_RUN (8 + n) (S (S (S d))) invoke_dynamic (Some p :: dyn_vals a1 a2 a3 a4 a5) h =
  ev_fun w n (S (S d)) g (dyn_vals a1 a2 a3 a4 a5) h.
Proof.
  intros Hn Hp Hh Hm Hf Hg Hx. rewrite tail_run_eq. cbn [f_body invoke_dynamic].
  set (r0 := bind_params (f_params invoke_dynamic) (Some p :: dyn_vals a1 a2 a3 a4 a5)).
  assert (R0 : r0 0%nat = Some p) by reflexivity. assert (R1 : r0 1%nat = Some a1) by reflexivity. assert (R2 : r0 2%nat = Some a2) by reflexivity.
  assert (R3 : r0 3%nat = Some a3) by reflexivity. assert (R4 : r0 4%nat = Some a4) by reflexivity. assert (R5 : r0 5%nat = Some a5) by reflexivity.
  clearbody r0. cbn [Nat.add]. rewrite tail_if_list, tail_if_some, call_eq, args_eq, var_eq, R0. cbn [bind].
  fuel n 1. rewrite args_nil. cbn [bind]. rewrite apply_eq.
  rewrite (call_fun_eq _ _ _ _ _ is_closure) by (first [reflexivity|apply (found is_closure); cbn; tauto]).
  rewrite run_is_closure by (first [lia|assumption]). cbn [need bind]. unfold is_closure_at. rewrite Hm. cbn [negb wbool as_bool Z.eqb Pos.eqb].
  rewrite tail_if_none, tail_das, das_eq. erewrite unsafe_lit; [|lia|exact R0]. cbn [need bind]. rewrite word_0.
  rewrite tail_expr_eq, call_var_eq.
  erewrite dyn_args_eval; [|lia|rewrite env_other by discriminate; eassumption..]. cbn [bind]. rewrite env_same.
  rewrite (word_id p) by exact Hp. eapply call_ptr_eq; eassumption.
Qed.

(** The code. *)
Hypothesis Hw : loaded w.
Let LK := proj1 Hw.
Let HF0 := proj1 (proj2 Hw).
Let HF := proj2 (proj2 Hw).
Lemma tail_code N d vs h n rs m fl q :
  nth_error (w_code w) n = Some (EFn (f_name invoke_dynamic)) ->
  in_use vs rs -> is_addr (rs rbp) -> rs rsp mod 16 = 8 ->
  w_lo w + w_room w + Z.of_nat d * w_frame w <= rs rsp + 8 <= w_hi w -> agree (w_heap w) m h ->
  w_place w (word (load m (rs rsp) + 8)) = Some q ->
  behaves w (MState n (rs, m, fl)) (TAIL_RUN N d invoke_dynamic vs h) (fun '(v, h') st' =>
    exists rs' m' fl', st' = MState q (rs', m', fl') /\ result_in v rs' /\
      rs' rsp = rs rsp + 8 /\ rs' rbp = rs rbp /\ agree (w_heap w) m' h' /\ stack_kept w (rs rsp + 8) m m').
Proof.
  intros Hn Hu Hb Ha Hst Hag Hq.
  assert (Hin : In invoke_dynamic (w_prog w)).
  { pose proof (found invoke_dynamic) as Hfd. unfold find_fun in Hfd. apply (find_some _ _ (Hfd ltac:(cbn; tauto))). }
  destruct (lk_code _ _ _ _ _ _ _ _ _ _ _ _ _ _ _ _ _ _ LK invoke_dynamic Hin) as (s & c & s' & k & Hg & Hc & Hl).
  assert (k = n).
  { destruct (gen_fn_start _ _ _ _ _ Hg) as [c' ->]. apply code_at_cons in Hc as [H0 _].
    apply (lk_entry _ _ _ _ _ _ _ _ _ _ _ _ _ _ _ _ _ _ LK) in H0 as [E1 _].
    apply (lk_entry _ _ _ _ _ _ _ _ _ _ _ _ _ _ _ _ _ _ LK) in Hn as [E2 _]. congruence. }
  subst k.
  eapply (Tail_run _ _ _ _ _ _ _ _ _ _ _ _ _ _ _ _ _ _ _ LK HF0 HF N d invoke_dynamic vs h s c s' n q rs m fl);
    [exact Hin|reflexivity|reflexivity|reflexivity|exact Hg|exact Hc|exact Hl|exact Hu|exact Hb|exact Ha|exact Hst|exact Hag|exact Hq].
Qed.
End Dyn.
