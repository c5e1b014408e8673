(** The generated code of expressions does what the expressions mean. *)
From Coq Require Import ZArith List Bool String Lia.
From Verif Require Import Ints X86 GenModel GenSpec GenMem GenStatic GenSlots GenExec.
Import ListNotations.
Open Scope Z_scope.
Ltac Zify.zify_post_hook ::= Z.div_mod_to_equations.
Local Arguments Z.mul : simpl never. Local Arguments Z.add : simpl never. Local Arguments Z.sub : simpl never.
Local Arguments Z.of_nat : simpl never.
Local Arguments word : simpl never. Local Arguments rset : simpl never. Local Arguments load : simpl never.
Local Arguments store : simpl never. Local Arguments w_shl : simpl never. Local Arguments w_sar : simpl never.

Lemma pushes_args_nonneg l : Forall (fun e => 0 <= pushes e) l -> 0 <= pushes_args l.
Proof. induction 1; cbn [pushes_args]; lia. Qed.
Lemma pushes_nonneg e : 0 <= pushes e.
Proof.
  induction e using expr_ind'; try (cbn [pushes]; lia).
  - change (pushes (ECall t fi f args)) with (7 + pushes_args args). pose proof (pushes_args_nonneg _ H). lia.
  - change (pushes (ECallVar t fi x args)) with (7 + pushes_args args). pose proof (pushes_args_nonneg _ H). lia.
Qed.

Lemma pushes_stmt_nonneg st : 0 <= pushes_stmt st.
Proof.
  induction st using stmt_ind'.
  - cbn [pushes_stmt]. destruct e as [e|]; [apply pushes_nonneg|lia].
  - change (pushes_stmt (SIf bs)) with (pushes_branches bs).
    induction bs as [|[c b] bs IH]; cbn [pushes_branches]; [lia|]. inversion H; subst. specialize (IH H3). lia.
  - cbn [pushes_stmt]. lia.
  - cbn [pushes_stmt]. pose proof (pushes_nonneg e). lia.
  - cbn [pushes_stmt]. pose proof (pushes_nonneg c). lia.
  - change (pushes_stmt (SBlock b)) with (pushes_list b). induction H; cbn [pushes_list]; lia.
  - apply pushes_nonneg.
Qed.
Lemma pushes_list_nonneg l : 0 <= pushes_list l.
Proof. induction l as [|st l IH]; cbn [pushes_list]; [lia|]. lia. Qed.

Section Correct.
Variable laddr : label -> Z.
Variable mext : string -> regs * memory -> option (regs * memory).
Variable mskips : string -> bool.
Variable addr : nat -> Z.
Variable place : Z -> option nat.
Variable P : list event.
Variable heap : Z -> bool.
Variable lit : list Z -> Z.
Variable fun_addr : string -> Z.
Variable fun_at : Z -> option string.
Variable extern abstract : string -> list value -> memory -> option (value * memory).
Variable alloc : string.
Variable prog : list fundef.
Variable lits : list (list Z).
Variable lo hi room F : Z.
Hypothesis L : linked laddr mext mskips addr place P heap lit fun_addr fun_at extern abstract alloc prog lits
  lo hi room.
Hypothesis HF0 : 0 <= F.
Hypothesis HF : forall fd, In fd prog -> safe_fun fd = true /\ frame_bytes fd <= F.

Notation STEP := (step laddr mext mskips addr place P).
Notation STEPS := (steps laddr mext mskips addr place P).
Notation ENDS := (ends P STEPS heap).
Notation EVAL := (eval heap lit fun_addr fun_at extern abstract alloc prog).
Notation EVAL_ADDR := (eval_addr heap lit fun_addr fun_at extern abstract alloc prog).
Notation EVAL_ARGS := (eval_args heap lit fun_addr fun_at extern abstract alloc prog).
Notation APPLY := (apply heap lit fun_addr fun_at extern abstract alloc prog).
Notation CALL_PTR := (call_ptr heap lit fun_addr fun_at extern abstract alloc prog).
Notation CALL_FUN := (call_fun heap lit fun_addr fun_at extern abstract alloc prog).
Notation RUN_FUN := (run_fun heap lit fun_addr fun_at extern abstract alloc prog).
Notation INV := (inv heap lo hi).
Notation SAME := (same hi).
Notation LOW d := (lo + room + Z.of_nat d * F).

Lemma Hst : stack_ok lo hi.
Proof. unfold stack_ok. destruct (lk_stack _ _ _ _ _ _ _ _ _ _ _ _ _ _ _ _ _ _ L). lia. Qed.
Lemma Hroom : 0 <= room.
Proof. destruct (lk_stack _ _ _ _ _ _ _ _ _ _ _ _ _ _ _ _ _ _ L). lia. Qed.
Lemma Hhp : heap_ok heap lo hi.
Proof. exact (lk_heap _ _ _ _ _ _ _ _ _ _ _ _ _ _ _ _ _ _ L). Qed.
Lemma Hlow d : lo <= LOW d.
Proof. pose proof Hroom. nia. Qed.

Definition lits_ok (s : gst) : Prop := forall k x, nth_error (g_lits s) k = Some x -> nth_error lits k = Some x.
Lemma lits_back s s' : extends (g_lits s) (g_lits s') -> lits_ok s' -> lits_ok s.
Proof. intros He H k x Hk. apply H. eapply extends_nth; eauto. Qed.

(* ------------------------------------------------------------------------ sequencing *)

Lemma ends_steps {A} st st1 (r : res A) Q : STEPS st st1 -> ENDS st1 r Q -> ENDS st r Q.
Proof.
  intros H. unfold ends. destruct r as [a|i a h| | |]; auto.
  - intros (st' & H1 & H2). eauto using steps_trans.
  - intros (p & rs & m & fl & H0 & H1 & H2). exists p, rs, m, fl. eauto using steps_trans.
  - intros (st' & H1 & H2). eauto using steps_trans.
Qed.
Lemma ends_bind {A B} st (r : res A) (f : A -> res B) Q Q' : ENDS st r Q ->
  (forall a st', Q a st' -> ENDS st' (f a) Q') -> ENDS st (bind r f) Q'.
Proof.
  intros H Hf. destruct r as [a|i a h| | |]; cbn in *; auto.
  destruct H as (st' & H1 & H2). apply Hf in H2. eapply ends_steps; eauto.
Qed.
Lemma ends_need {A} st (r : res (value * memory)) (k : Z -> memory -> res A) Q Q' : ENDS st r Q ->
  (forall w h st', Q (Some w, h) st' -> ENDS st' (k w h) Q') -> ENDS st (need r k) Q'.
Proof.
  intros H Hf. unfold need. eapply ends_bind; [exact H|]. intros [[w|] h] st' Hq; [now apply Hf|exact I].
Qed.
Lemma ends_weaken {A} st (r : res A) (Q Q' : A -> mstate -> Prop) : ENDS st r Q -> (forall a st', Q a st' -> Q' a st') -> ENDS st r Q'.
Proof. destruct r; cbn; auto. intros (st' & H1 & H2) H. eauto. Qed.
Lemma ends_then {A} st (r : res A) (Q Q' : A -> mstate -> Prop) : ENDS st r Q ->
  (forall a st', Q a st' -> exists st'', STEPS st' st'' /\ Q' a st'') -> ENDS st r Q'.
Proof.
  destruct r; cbn; auto. intros (st' & H1 & H2) H. destruct (H _ _ H2) as (st'' & H3 & H4).
  exists st''. split; [eapply steps_trans; eauto|exact H4].
Qed.
Lemma ends_val {A} st (a : A) (Q : A -> mstate -> Prop) : Q a st -> ENDS st (Val a) Q.
Proof. intros H. exists st. split; [constructor|exact H]. Qed.

(** Straight-line code, then the rest. *)
Lemma ends_sx {A} c n k k' (r : res A) Q : code_at P n c -> sx laddr c k = Some k' ->
  ENDS (MState (n + List.length c) k') r Q -> ENDS (MState n k) r Q.
Proof. intros Hc Hx. apply ends_steps. eapply sx_steps; eauto. Qed.

(* -------------------------------------------------------------------------- claims *)

(** After the code of an expression: its value is in rax, everything else is as
    before. *)
Definition expr_post (slot : nat -> Z) (T B sp : Z) (us : list value) (r : env) (n' : nat) (rs : regs) (m : memory)
  (a : value * memory) (st' : mstate) : Prop :=
  let '(v, h') := a in
  exists rs' m' fl', st' = MState n' (rs', m', fl') /\ result_in v rs' /\ SAME (rs rsp) m m' /\
    INV slot T B sp us r h' rs' m'.

Definition E_for (N : nat) (e : expr) : Prop :=
  forall d slot T B us r h s c s' n rs m fl,
  gen_expr slot e false s = Some (c, s') -> code_at P n c -> lits_ok s' ->
  safe (List.length us) e = true -> List.length us = List.length (in_use_types s) ->
  INV slot T B (g_sp s) us r h rs m -> LOW d + 8 * pushes e <= rs rsp ->
  ENDS (MState n (rs, m, fl)) (EVAL N d r h e)
    (expr_post slot T B (g_sp s) us r (n + List.length c) rs m).
Definition E_ok (N : nat) : Prop := forall e, E_for N e.

(** The address of a field or an element; [ta] tells whether the address itself or
    what is there is wanted: the last instruction differs. *)
Definition addr_post (ta : bool) (slot : nat -> Z) (T B sp : Z) (us : list value) (r : env) (n' : nat) (rs : regs) (m : memory)
  (a : Z * memory) (st' : mstate) : Prop :=
  let '(p, h') := a in
  exists rs' m' fl' mo, st' = MState n' (rs', m', fl') /\
    nth_error P n' = Some (EIns (if ta then leaq else movq) [OMem mo; OReg rax]) /\
    m_deref mo = true /\ m_indir mo = false /\ ea rs' mo = p /\
    SAME (rs rsp) m m' /\ INV slot T B sp us r h' rs' m'.

Definition A_ok (N : nat) : Prop :=
  forall d ta slot T B us r h s c s' n rs m fl e,
  gen_expr slot e ta s = Some (c, s') -> code_at P n c -> lits_ok s' ->
  safe (List.length us) e = true -> List.length us = List.length (in_use_types s) ->
  INV slot T B (g_sp s) us r h rs m -> LOW d + 8 * pushes e <= rs rsp ->
  ENDS (MState n (rs, m, fl)) (EVAL_ADDR N d r h e)
    (addr_post ta slot T B (g_sp s) us r (n + (List.length c - 1)) rs m).

Definition conv (fi : fninfo) (args : list expr) (vs : list value) : list value :=
  if fi_external fi && fi_raw fi then raw_args args vs else vs.

Definition Args_ok (N : nat) : Prop :=
  forall d slot T B us r h s c s' n rs m fl fi args,
  gen_args slot fi (List.length us) args s = Some (c, s') -> code_at P n c -> lits_ok s' ->
  safe_args (List.length us) args = true -> List.length us = List.length (in_use_types s) ->
  INV slot T B (g_sp s) us r h rs m -> LOW d + 8 * pushes_args args <= rs rsp ->
  ENDS (MState n (rs, m, fl)) (EVAL_ARGS N d r h args)
    (fun '(vs, h') st' => List.length vs = List.length args /\
      exists rs' m' fl', st' = MState (n + List.length c) (rs', m', fl') /\ SAME (rs rsp) m m' /\
        INV slot T B (g_sp s) (us ++ conv fi args vs) r h' rs' m').

(** A call and the return from it, at place [n']. *)
Definition call_post (n' : nat) (rs : regs) (m : memory) (a : value * memory) (st' : mstate) : Prop :=
  let '(v, h') := a in
  exists rs' m' fl', st' = MState n' (rs', m', fl') /\ result_in v rs' /\
    rs' rsp = rs rsp /\ rs' rbp = rs rbp /\ agree heap m' h' /\ SAME (rs rsp) m m'.

Definition Fun_ok (N : nat) : Prop :=
  forall d f vs h n l rs m fl,
  nth_error P n = Some (EIns call [OFn f]) -> nth_error P (S n) = Some (EAddr l) ->
  in_use vs rs -> is_word (rs rbp) -> rs rsp mod 16 = 0 -> LOW d <= rs rsp <= hi -> agree heap m h ->
  ENDS (MState n (rs, m, fl)) (CALL_FUN N d f vs h) (call_post (S (S n)) rs m).

Definition Ptr_ok (N : nat) : Prop :=
  forall d fi w vs h n l rs m fl a,
  nth_error P n = Some (EIns call [OMem a]) -> m_indir a = true -> target (rs, m, fl) a = w ->
  (fi_external fi = false -> nth_error P (S n) = Some (EAddr l)) ->
  in_use vs rs -> is_word (rs rbp) -> rs rsp mod 16 = 0 -> LOW d <= rs rsp <= hi -> agree heap m h ->
  ENDS (MState n (rs, m, fl)) (CALL_PTR N d fi w vs h) (call_post (S (S n)) rs m).

(** The run of a function from its entry to the place it returns to. *)
Definition Run_ok (N : nat) : Prop :=
  forall d fd vs h s c s' n q rs m fl,
  In fd prog -> gen_fn alloc fd s = Some (c, s') -> code_at P n c -> lits_ok s' ->
  in_use vs rs -> is_word (rs rbp) -> rs rsp mod 16 = 8 -> LOW d <= rs rsp + 8 <= hi -> agree heap m h ->
  place (if f_extret fd then load m (rs rsp) else word (load m (rs rsp) + 8)) = Some q ->
  ENDS (MState n (rs, m, fl)) (RUN_FUN N d fd vs h)
    (fun '(v, h') st' => exists rs' m' fl', st' = MState q (rs', m', fl') /\ result_in v rs' /\
      rs' rsp = rs rsp + 8 /\ rs' rbp = rs rbp /\ agree heap m' h' /\ SAME (rs rsp + 8) m m').

(* ----------------------------------------------------------------------- the frame *)

Lemma inv_word slot T B sp us r h rs m : INV slot T B sp us r h rs m -> is_word (rs rsp).
Proof. intros H. eapply inv_rsp_word; [exact Hst|exact H]. Qed.

Lemma inv_bound slot T B sp us r h rs m : INV slot T B sp us r h rs m -> rs rsp + 16 <= hi.
Proof. intros [[? ? [? ?] ? ? ?] ? ? ? ? ? ? ?]. lia. Qed.

Lemma inv_bound' slot T B sp us r h rs m : INV slot T B sp us r h rs m -> B + 16 <= hi.
Proof. intros [[? ? [? ?] ? ? ?] ? ? ? ? ? ? ?]. lia. Qed.

Lemma inv_rbp_word slot T B sp us r h rs m : INV slot T B sp us r h rs m -> is_word (rs rbp).
Proof. pose proof Hst as Hs. unfold stack_ok in Hs. intros [[? ? [? ?] ? ? ?] ? ? ? ? ? ? ?]. unfold is_word. lia. Qed.

Lemma inv_rsp_eq slot T B sp us r h rs m us' r' h' rs' m' :
  INV slot T B sp us r h rs m -> INV slot T B sp us' r' h' rs' m' -> rs' rsp = rs rsp.
Proof. intros [] []. congruence. Qed.

(** Two operands: code of the first, [mid] (which leaves the first value, changed by
    [f], on the stack), code of the second, then the rest. *)
Lemma two_operands N d slot T B us r h s n rs m fl l rt c1 s1 mid c2 s2 tail {A} (k : Z -> Z -> memory -> res A) Q f :
  E_ok N ->
  gen_expr slot l false s = Some (c1, s1) -> gen_expr slot rt false (set_sp (fun x => x + 1) s1) = Some (c2, s2) ->
  code_at P n (c1 ++ mid ++ EIns pushq [OReg rax] :: c2 ++ tail) -> lits_ok s2 ->
  (forall rs m fl, exists rs' fl', sx laddr mid (rs, m, fl) = Some (rs', m, fl') /\ rs' rax = f (rs rax) /\
     forall x, x <> rax -> rs' x = rs x) ->
  safe (List.length us) l = true -> safe (List.length us) rt = true ->
  List.length us = List.length (in_use_types s) ->
  INV slot T B (g_sp s) us r h rs m -> LOW d + 8 * Z.max (pushes l) (1 + pushes rt) <= rs rsp ->
  (forall a b h' rs' m' fl', is_word a -> is_word b ->
     rs' rax = b -> load m' (rs' rsp) = word (f a) -> SAME (rs rsp) m m' ->
     INV slot T B (g_sp s + 1) us r h' rs' m' ->
     ENDS (MState (n + List.length c1 + List.length mid + 1 + List.length c2) (rs', m', fl')) (k a b h') Q) ->
  ENDS (MState n (rs, m, fl)) (need (EVAL N d r h l) (fun a h => need (EVAL N d r h rt) (fun b h => k a b h))) Q.
Proof.
  intros IH Gl Gr Hc Hlit Hmid Sl Sr Hlen Hinv Hroom' Hk. pose proof (pushes_nonneg rt) as Hp.
  pose proof (gen_expr_eff _ _ _ _ _ _ Gl) as (E1 & E2 & E3).
  pose proof (gen_expr_eff _ _ _ _ _ _ Gr) as (E4 & E5 & E6). cbn in E4, E5, E6.
  apply code_at_app in Hc as [Hc1 Hc]. apply code_at_app in Hc as [Hcm Hc].
  apply code_at_cons in Hc as [Hp1 Hc]. apply code_at_app in Hc as [Hc2 Hct].
  eapply ends_need.
  { eapply (IH l d slot T B us r h s c1 s1 n rs m fl); eauto; [|lia].
    eapply lits_back; [|exact Hlit]. exact E6. }
  intros a h1 st1 (rs1 & m1 & fl1 & -> & [Ra Wa] & Hs1 & Hi1).
  pose proof (inv_rsp_eq _ _ _ _ _ _ _ _ _ _ _ _ _ _ Hinv Hi1) as Hrsp.
  destruct (Hmid rs1 m1 fl1) as (rs2 & fl2 & Hx & Hf2 & Ho2).
  eapply ends_sx; [exact Hcm|exact Hx|]. rewrite Ra in Hf2.
  assert (Hi2 : INV slot T B (g_sp s) us r h1 rs2 m1).
  { eapply inv_after; [exact Hi1|apply same_refl|apply Hi1|apply Ho2; discriminate|apply Ho2; discriminate|].
    destruct Hi1 as [? ? ? ? ? ? ? Hu]. destruct Hu as [Hu1 Hu2]. split; [|exact Hu2].
    intros i w x Hw Hx'. rewrite Ho2; [eauto|]. apply (arg_reg_not _ _ Hx'). }
  assert (Hrsp2 : rs2 rsp = rs rsp) by (rewrite Ho2 by discriminate; exact Hrsp).
  assert (Hlo : lo <= rs2 rsp - 8).
  { pose proof (Hlow d) as HH. lia. }
  destruct (inv_push heap lo hi _ _ _ _ _ _ _ _ _ (f a) Hst Hhp Hi2 Hlo) as (Hi3 & Hw3 & Hs3).
  eapply ends_steps.
  { apply steps_one. cbn [step]. rewrite Hp1. cbn [exec read push]. rewrite Hw3, Hf2. reflexivity. }
  set (rs3 := rset rs2 rsp (rs2 rsp - 8)) in *.
  set (m3 := store m1 (rs2 rsp - 8) (f a)) in *.
  assert (Hr3 : rs3 rsp = rs rsp - 8).
  { unfold rs3. rewrite rset_same. lia. }
  eapply ends_need.
  { eapply (IH rt d slot T B us r h1 (set_sp (fun x => x + 1) s1) c2 s2 _ rs3 m3 fl2); eauto.
    - unfold in_use_types. cbn. unfold in_use_types in Hlen. congruence.
    - cbn. rewrite E1. exact Hi3.
    - rewrite Hr3. lia. }
  intros b h2 st2 (rs4 & m4 & fl4 & -> & [Rb Wb] & Hs4 & Hi4).
  cbn in Hi4. rewrite E1 in Hi4.
  pose proof (inv_rsp_eq _ _ _ _ _ _ _ _ _ _ _ _ _ _ Hi3 Hi4) as Hrsp4.
  replace (S (n + List.length c1 + List.length mid) + List.length c2)%nat
    with (n + List.length c1 + List.length mid + 1 + List.length c2)%nat by lia.
  apply Hk; auto.
  - rewrite Hrsp4.
    assert (Hb4 : rs3 rsp + 8 <= hi) by (pose proof (inv_bound _ _ _ _ _ _ _ _ _ Hinv); lia).
    rewrite (same_load hi (rs3 rsp) m3 m4); auto; [|lia].
    unfold m3, rs3. rewrite rset_same. apply load_store_same.
  - apply (same_trans hi (rs rsp) _ m m1); [lia|exact Hs1|].
    apply (same_trans hi (rs rsp) _ m1 m3); [lia| |].
    + rewrite Hrsp2 in Hs3. exact Hs3.
    + eapply same_weaken; [|exact Hs4]. lia.
Qed.

(* ----------------------------------------------------------------- the expressions *)

Ltac rs_simp := repeat (rewrite rset_same || rewrite rset_other by discriminate).
Ltac sx_simp := cbn [app sx exec read write arith no_flags setcc push parent arith_ins logic_ins cmp_ins shift_ins
  imm32 Z.leb Z.compare Pos.compare Pos.compare_cont andb CompOpp negb m_deref m_indir tagged_op true_op false_op].
Ltac free_tac := solve [apply free_rax | apply free_rbx | apply free_rdx; lia | apply free_rcx; lia].
Ltac inv_tac := repeat match goal with
  | |- INV _ _ _ _ _ _ _ (rset (rset ?rs rsp (word (?rs rsp + 8))) ?x ?v) _ =>
      apply inv_pop'; [exact Hst| | |free_tac|discriminate|discriminate]
  | |- INV _ _ _ _ _ _ _ (rset ?rs ?x ?v) _ => apply inv_set; [free_tac|discriminate|discriminate|]
  end.
Ltac len := repeat (progress (rewrite ?app_length; cbn [List.length])); lia.

(** Untagging before the first operand is saved. *)
Lemma mid_untag : forall rs m fl, exists rs' fl', sx laddr [EIns sarq [OImm 1; OReg rax]] (rs, m, fl) = Some (rs', m, fl') /\
  rs' rax = (fun x => word (ival x)) (rs rax) /\ forall x, x <> rax -> rs' x = rs x.
Proof.
  intros. eexists _, _. split; [reflexivity|]. split; [rewrite rset_same; apply sar1|]. intros x Hx. apply rset_other. congruence.
Qed.
Lemma mid_none : forall rs m fl, exists rs' fl', sx laddr [] (rs, m, fl) = Some (rs', m, fl') /\
  rs' rax = (fun x => x) (rs rax) /\ forall x, x <> rax -> rs' x = rs x.
Proof. intros. exists rs, fl. auto. Qed.


Definition mid_ok (mid : list event) (f : Z -> Z) : Prop :=
  forall rs m fl, exists rs' fl', sx laddr mid (rs, m, fl) = Some (rs', m, fl') /\
    rs' rax = f (rs rax) /\ forall x, x <> rax -> rs' x = rs x.

(** As above, the second value moved to another register and the first one back. *)
Lemma two_fetched N d slot T B us r h s n rs m fl l rt c1 s1 mid c2 s2 mid2 x tail {A} (k : Z -> Z -> memory -> res A) Q f g :
  E_ok N ->
  gen_expr slot l false s = Some (c1, s1) -> gen_expr slot rt false (set_sp (fun x => x + 1) s1) = Some (c2, s2) ->
  code_at P n (c1 ++ mid ++ [EIns pushq [OReg rax]] ++ c2 ++ mid2 ++ [EIns movq [OReg rax; OReg x]] ++ [EIns popq [OReg rax]] ++ tail) ->
  lits_ok s2 -> mid_ok mid f -> mid_ok mid2 g -> free (List.length us) x -> x = rbx \/ x = rcx ->
  safe (List.length us) l = true -> safe (List.length us) rt = true ->
  List.length us = List.length (in_use_types s) ->
  INV slot T B (g_sp s) us r h rs m -> LOW d + 8 * Z.max (pushes l) (1 + pushes rt) <= rs rsp ->
  (forall a b h' rs' m' fl', is_word a -> is_word b ->
     rs' rax = word (f a) -> rs' x = word (g b) -> SAME (rs rsp) m m' ->
     INV slot T B (g_sp s) us r h' rs' m' ->
     ENDS (MState (n + List.length c1 + List.length mid + List.length c2 + List.length mid2 + 3) (rs', m', fl')) (k a b h') Q) ->
  ENDS (MState n (rs, m, fl)) (need (EVAL N d r h l) (fun a h => need (EVAL N d r h rt) (fun b h => k a b h))) Q.
Proof.
  intros IH Gl Gr Hc Hlit Hmid Hmid2 Hfree Hx Sl Sr Hlen Hinv Hroom' Hk.
  eapply two_operands with (c1 := c1) (s1 := s1) (mid := mid) (c2 := c2) (s2 := s2) (f := f); eauto; [exact Hc|].
  intros a b h1 rs1 m1 fl1 Wa Wb Hb Ha Hs1 Hi1.
  apply code_at_app in Hc as [_ Hc]. apply code_at_app in Hc as [_ Hc]. apply code_at_app in Hc as [_ Hc].
  apply code_at_app in Hc as [_ Hc]. apply code_at_app in Hc as [Hm2 Hc]. cbn [List.length] in Hc, Hm2.
  destruct (Hmid2 rs1 m1 fl1) as (rs2 & fl2 & Hx2 & Hf2 & Ho2).
  eapply ends_sx; [exact Hm2|exact Hx2|]. rewrite Hb in Hf2.
  assert (Hi2 : INV slot T B (g_sp s + 1) us r h1 rs2 m1).
  { eapply inv_after; [exact Hi1|apply same_refl|apply Hi1|apply Ho2; discriminate|apply Ho2; discriminate|].
    destruct Hi1 as [? ? ? ? ? ? ? Hu]. destruct Hu as [Hu1 Hu2]. split; [|exact Hu2].
    intros i w y Hw Hy'. rewrite Ho2; [eauto|]. apply (arg_reg_not _ _ Hy'). }
  rewrite app_assoc in Hc. apply code_at_app in Hc as [Hc _].
  eapply ends_sx; [exact Hc|sx_simp; reflexivity|].
  match goal with |- ENDS (MState ?p _) _ _ =>
    replace p with (n + List.length c1 + List.length mid + List.length c2 + List.length mid2 + 3)%nat by len end.
  assert (Hxr : rax <> x /\ x <> rsp /\ x <> rbp) by (destruct Hx; subst; repeat split; discriminate).
  destruct Hxr as (X1 & X2 & X3).
  apply Hk; auto.
  - rewrite rset_same. rewrite rset_other by auto. rewrite Ho2 by discriminate. exact Ha.
  - rewrite !(rset_other _ _ x) by auto. rewrite rset_same. now rewrite Hf2.
  - apply inv_pop'; [exact Hst| |apply Hinv|apply free_rax|discriminate|discriminate].
    apply inv_set; auto.
Qed.

Lemma untag_ok : mid_ok [EIns sarq [OImm 1; OReg rax]] (fun x => word (ival x)).
Proof. exact mid_untag. Qed.
Lemma none_ok : mid_ok [] (fun x => x).
Proof. exact mid_none. Qed.

Tactic Notation "skip_code" hyp(Hc) integer(k) := do k (apply code_at_app in Hc as [_ Hc]); cbn [List.length] in Hc.
Ltac at_code Hc :=
  lazymatch type of Hc with
  | code_at _ ?p _ => lazymatch goal with |- ENDS (MState ?q _) _ _ => replace q with p by len end
  | nth_error _ ?p = _ => lazymatch goal with |- ENDS (MState ?q _) _ _ => replace q with p by len end
  end.
(** The end of an expression. *)
Ltac finish Hs := apply ends_val; eexists _, _, _; split; [f_equal; len|]; split; [|split; [exact Hs|]].

Lemma E_arith N t op l rt : E_ok N -> E_for (S N) (EArith t op l rt).
Proof.
  intros IH d slot T B us r h s c s' n rs m fl Hg Hc Hlit Hsafe Hlen Hinv Hlow.
  cbn [gen_expr] in Hg. apply seq_inv in Hg as (c1 & s1 & c' & G1 & Hg & ->).
  apply seq_inv in Hg as (c2 & s2 & c3 & G2 & Hg & ->). ginv G2.
  apply seq_inv in Hg as (c2 & s2 & c4 & G2 & Hg & ->). ginv G2.
  apply seq_inv in Hg as (c2 & s2 & c3 & G2 & Hg & ->).
  apply seq_inv in Hg as (c4 & s4 & c5 & G4 & Hg & ->). ginv G4.
  apply seq_inv in Hg as (c4 & s4 & c6 & G4 & Hg & ->). ginv G4.
  apply seq_inv in Hg as (c4 & s4 & c5 & G4 & Hg & ->). ginv G4.
  assert (Hs2 : lits_ok s2) by (clear - Hg Hlit; destruct op; ginv Hg; exact Hlit).
  assert (Hsafe' : (op = Div -> (List.length us <= 2)%nat) /\ safe (List.length us) l = true /\ safe (List.length us) rt = true).
  { cbn [safe] in Hsafe. destruct op; rewrite ?andb_true_iff in Hsafe; intuition (try discriminate).
    now apply Nat.leb_le. }
  destruct Hsafe' as (Hdiv & Sl & Sr).
  cbn [eval pushes] in Hlow |- *.
  eapply two_fetched with (c1 := c1) (s1 := s1) (mid := [EIns sarq [OImm 1; OReg rax]]) (c2 := c2) (s2 := s2)
    (mid2 := [EIns sarq [OImm 1; OReg rax]]) (x := rbx)
    (f := fun x => word (ival x)) (g := fun x => word (ival x)); eauto using untag_ok, free_rbx.
  intros a b h1 rs1 m1 fl1 Wa Wb Ha Hb Hs1 Hi1. cbv beta in Ha, Hb. rewrite word_word in Ha, Hb.
  skip_code Hc 7.
  destruct op eqn:Eop.
  all: try (
    assert (Hop : op <> Div) by congruence;
    destruct (arith_spec op a b Hop) as (x & Ex1 & Ex); rewrite Eop in *; rewrite Ex1;
    ginv1 Hg;
    at_code Hc; eapply ends_sx; [exact Hc|sx_simp; reflexivity|];
    finish Hs1; [|inv_tac; exact Hi1];
    split; [|apply wint_range]; rs_simp; rewrite tag_spec, Ha, Hb; exact Ex).
  cbn [sem_arith]. ginv1 Hg. cbn [app arith_ins] in Hc.
  apply code_at_cons in Hc as [Hq Hc]. pose proof Hc as Hc'. apply code_at_cons in Hc as [Hi Hc].
  at_code Hq.
  eapply ends_steps; [apply steps_one; cbn [step]; rewrite Hq; cbn [exec]; reflexivity|].
  set (rs2 := rset rs1 rdx _).
  assert (Hi2 : INV slot T B (g_sp s) us r h1 rs2 m1).
  { apply inv_set; [apply free_rdx; auto|discriminate|discriminate|exact Hi1]. }
  assert (Ha2 : rs2 rax = word (ival a)) by (unfold rs2; rs_simp; exact Ha).
  assert (Hb2 : rs2 rbx = word (ival b)) by (unfold rs2; rs_simp; exact Hb).
  assert (Hd2 : rs2 rdx = (if signed (word (ival a)) <? 0 then W - 1 else 0))
    by (unfold rs2; rs_simp; now rewrite Ha).
  clearbody rs2.
  destruct (idiv (ival a) (ival b)) as [x|] eqn:Ex.
  - destruct (div_spec a b x Ex rs2 Ha2 Hd2) as (q & Hq1 & Hq2). 
    eapply ends_sx; [exact Hc'| |].
    { cbn [sx exec]. rewrite Hb2, Hq1. sx_simp. reflexivity. }
    finish Hs1.
    + split; [|apply wint_range]. rs_simp. rewrite tag_spec. exact Hq2.
    + apply inv_set; [free_tac|discriminate|discriminate|].
      apply inv_set; [free_tac|discriminate|discriminate|].
      apply inv_set; [apply free_rdx; auto|discriminate|discriminate|].
      apply inv_set; [free_tac|discriminate|discriminate|]. exact Hi2.
  - eexists. split; [constructor|]. exists rbx. split; [exact Hi|]. cbn [mcore]. rewrite Hb2, signed_ival.
    unfold idiv in Ex. destruct (ival b =? 0) eqn:E0; [lia|discriminate].
Qed.

Lemma E_shift N t op l rt : E_ok N -> E_for (S N) (EShift t op l rt).
Proof.
  intros IH d slot T B us r h s c s' n rs m fl Hg Hc Hlit Hsafe Hlen Hinv Hlow.
  cbn [gen_expr] in Hg. ginv1 Hg.
  cbn [safe] in Hsafe. rewrite !andb_true_iff in Hsafe. destruct Hsafe as [[Hk Sl] Sr]. apply Nat.leb_le in Hk.
  cbn [eval pushes] in Hlow |- *.
  eapply two_fetched with (x := rcx) (mid := [EIns sarq [OImm 1; OReg rax]]) (mid2 := [EIns sarq [OImm 1; OReg rax]])
    (f := fun x => word (ival x)) (g := fun x => word (ival x)); eauto using untag_ok, free_rcx.
  intros a b h1 rs1 m1 fl1 Wa Wb Ha Hb Hs1 Hi1. cbv beta in Ha, Hb. rewrite word_word in Ha.
  skip_code Hc 7. at_code Hc.
  assert (E : sx laddr [EIns (shift_ins op) [OReg8 cl; OReg rax]] (rs1, m1, fl1) =
    Some (rset rs1 rax (match op with BLeft => w_shl | BRight => w_sar end (rs1 rax) (rs1 rcx mod 256)), m1, None))
    by (destruct op; reflexivity).
  eapply ends_sx; [exact Hc|rewrite sx_app, E; sx_simp; reflexivity|].
  finish Hs1; [|inv_tac; exact Hi1].
  split; [|apply wint_range]. rs_simp. rewrite tag_spec, Ha, Hb. apply shift_spec.
Qed.

Lemma E_cmp N t op l rt : E_ok N -> E_for (S N) (ECmp t op l rt).
Proof.
  intros IH d slot T B us r h s c s' n rs m fl Hg Hc Hlit Hsafe Hlen Hinv Hlow.
  cbn [gen_expr] in Hg. ginv1 Hg.
  cbn [safe] in Hsafe. rewrite !andb_true_iff in Hsafe. destruct Hsafe as [Sl Sr].
  cbn [eval pushes] in Hlow |- *.
  eapply two_fetched with (x := rbx) (mid := [EIns sarq [OImm 1; OReg rax]]) (mid2 := [EIns sarq [OImm 1; OReg rax]])
    (f := fun x => word (ival x)) (g := fun x => word (ival x)); eauto using untag_ok, free_rbx.
  intros a b h1 rs1 m1 fl1 Wa Wb Ha Hb Hs1 Hi1. cbv beta in Ha, Hb. rewrite word_word in Ha, Hb.
  skip_code Hc 7. at_code Hc.
  assert (E : sx laddr ([EIns cmpq [OReg rbx; OReg rax]] ++ [EIns (cmp_ins op) [OReg8 al]]) (rs1, m1, fl1) =
    Some (rset rs1 rax (rs1 rax / 256 * 256 + (if cmp_fun op (rs1 rax) (rs1 rbx) then 1 else 0)), m1, Some (rs1 rax, rs1 rbx)))
    by (destruct op; reflexivity).
  rewrite app_assoc in Hc.
  eapply ends_sx; [exact Hc|rewrite sx_app, E; sx_simp; reflexivity|].
  finish Hs1; [|inv_tac; exact Hi1].
  rewrite Ha, Hb, cmp_spec. rs_simp. split.
  - rs_simp. change (word 1) with (Z.ones 1). rewrite Z.land_ones by lia. change (2 ^ 1) with 2.
    set (x := word (ival a)). unfold wbool. destruct (sem_cmp op (ival a) (ival b)); rewrite word_id; unfold is_word; lia.
  - unfold is_addr, wbool. destruct (sem_cmp op (ival a) (ival b)); lia.
Qed.

Lemma as_bool_cases w b : as_bool w = Some b -> w = wbool b.
Proof. unfold as_bool, wbool. destruct (w =? 0) eqn:E0; [|destruct (w =? 1) eqn:E1]; intros H; try discriminate; injection H as <-; lia. Qed.

Lemma E_logic N t op l rt : E_ok N -> E_for (S N) (ELogic t op l rt).
Proof.
  intros IH d slot T B us r h s c s' n rs m fl Hg Hc Hlit Hsafe Hlen Hinv Hlow.
  cbn [gen_expr] in Hg. ginv1 Hg.
  cbn [safe] in Hsafe. rewrite !andb_true_iff in Hsafe. destruct Hsafe as [Sl Sr].
  cbn [eval pushes] in Hlow |- *.
  eapply two_fetched with (x := rbx) (mid := []) (mid2 := []) (f := fun x => x) (g := fun x => x);
    eauto using none_ok, free_rbx.
  intros a b h1 rs1 m1 fl1 Wa Wb Ha Hb Hs1 Hi1. cbv beta in Ha, Hb.
  skip_code Hc 5. at_code Hc.
  destruct (as_bool a) as [x|] eqn:Ea; [|exact I]. destruct (as_bool b) as [y|] eqn:Eb; [|exact I].
  apply as_bool_cases in Ea, Eb. subst a b.
  assert (E : sx laddr [EIns (logic_ins op) [OReg rbx; OReg rax]] (rs1, m1, fl1) =
    Some (rset rs1 rax (wbool (sem_logic op x y)), m1, None)).
  { destruct op, x, y; sx_simp; rewrite Ha, Hb; reflexivity. }
  eapply ends_sx; [exact Hc|exact E|].
  finish Hs1; [|inv_tac; exact Hi1].
  split; [now rs_simp|]. unfold is_addr, wbool. destruct (sem_logic op x y); lia.
Qed.

(** One operand. *)
Lemma one_operand N d slot T B us r h s n rs m fl e c1 s1 tail {A} (k : Z -> memory -> res A) Q :
  E_ok N -> gen_expr slot e false s = Some (c1, s1) -> code_at P n (c1 ++ tail) -> lits_ok s1 ->
  safe (List.length us) e = true -> List.length us = List.length (in_use_types s) ->
  INV slot T B (g_sp s) us r h rs m -> LOW d + 8 * pushes e <= rs rsp ->
  (forall a h' rs' m' fl', is_word a -> rs' rax = a -> SAME (rs rsp) m m' -> INV slot T B (g_sp s) us r h' rs' m' ->
     ENDS (MState (n + List.length c1) (rs', m', fl')) (k a h') Q) ->
  ENDS (MState n (rs, m, fl)) (need (EVAL N d r h e) k) Q.
Proof.
  intros IH G Hc Hlit S Hlen Hinv Hroom' Hk. apply code_at_app in Hc as [Hc _].
  eapply ends_need; [eapply (IH e); eauto|].
  intros a h1 st1 (rs1 & m1 & fl1 & -> & [Ra Wa] & Hs1 & Hi1). apply Hk; auto.
Qed.

Lemma E_not N t e : E_ok N -> E_for (S N) (ENot t e).
Proof.
  intros IH d slot T B us r h s c s' n rs m fl Hg Hc Hlit Hsafe Hlen Hinv Hlow.
  cbn [gen_expr] in Hg. ginv1 Hg. cbn [eval pushes safe] in *.
  eapply one_operand; eauto. intros a h1 rs1 m1 fl1 Wa Ha Hs1 Hi1. skip_code Hc 1.
  destruct (as_bool a) as [x|] eqn:Ea; [|exact I]. apply as_bool_cases in Ea.
  eapply ends_sx; [exact Hc|sx_simp; reflexivity|].
  finish Hs1; [|inv_tac; exact Hi1].
  split; [|unfold is_addr, wbool; destruct x; cbn [negb]; lia]. rs_simp. rewrite Ha, Ea. now destruct x.
Qed.

Lemma E_bnot N t e : E_ok N -> E_for (S N) (EBNot t e).
Proof.
  intros IH d slot T B us r h s c s' n rs m fl Hg Hc Hlit Hsafe Hlen Hinv Hlow.
  cbn [gen_expr] in Hg. ginv1 Hg. cbn [eval pushes safe] in *.
  eapply one_operand; eauto. intros a h1 rs1 m1 fl1 Wa Ha Hs1 Hi1. skip_code Hc 1.
  eapply ends_sx; [exact Hc|sx_simp; reflexivity|].
  finish Hs1; [|inv_tac; exact Hi1].
  split; [|apply wint_range]. rs_simp. rewrite Ha. apply not_spec.
Qed.

Lemma E_neg N t e : E_ok N -> E_for (S N) (ENeg t e).
Proof.
  intros IH d slot T B us r h s c s' n rs m fl Hg Hc Hlit Hsafe Hlen Hinv Hlow.
  cbn [gen_expr] in Hg. ginv1 Hg. cbn [eval pushes safe] in *.
  eapply one_operand; eauto. intros a h1 rs1 m1 fl1 Wa Ha Hs1 Hi1. skip_code Hc 1.
  eapply ends_sx; [exact Hc|sx_simp; reflexivity|].
  finish Hs1; [|inv_tac; exact Hi1].
  split; [|apply wint_range]. rs_simp. rewrite Ha, tag_spec, sar1. apply neg_spec.
Qed.

Lemma E_array_lit N t e : E_ok N -> E_for (S N) (EArrayLit t e).
Proof.
  intros IH d slot T B us r h s c s' n rs m fl Hg Hc Hlit Hsafe Hlen Hinv Hlow.
  cbn [gen_expr] in Hg. cbn [eval pushes safe] in *. eapply (IH e); eauto.
Qed.

Lemma E_int N t z : E_for (S N) (ELitInt t z).
Proof.
  intros d slot T B us r h s c s' n rs m fl Hg Hc Hlit Hsafe Hlen Hinv Hlow.
  cbn [gen_expr] in Hg. apply seq_inv in Hg as (c1 & s1 & c2 & G & Hg & ->). ginv1 Hg. cbn [eval].
  destruct ((z <? -9223372036854775808) || (9223372036854775807 <? z)) eqn:E1; [ginv1 G|].
  destruct ((z >? 2147483647) || (z <? -2147483648)) eqn:E2; ginv1 G.
  - eapply ends_sx; [exact Hc|sx_simp; reflexivity|].
    finish (same_refl hi (rs rsp) m); [|inv_tac; exact Hinv].
    split; [|apply wint_range]. rs_simp. rewrite tag_spec. apply wint_word.
  - assert (Hi : imm32 z = true) by (unfold imm32; lia).
    eapply ends_sx; [exact Hc|cbn [app sx exec read]; rewrite Hi; sx_simp; reflexivity|].
    finish (same_refl hi (rs rsp) m); [|inv_tac; exact Hinv].
    split; [|apply wint_range]. rs_simp. rewrite tag_spec, wint_word. apply wint_word.
Qed.

Lemma E_bool N t b : E_for (S N) (ELitBool t b).
Proof.
  intros d slot T B us r h s c s' n rs m fl Hg Hc Hlit Hsafe Hlen Hinv Hlow.
  cbn [gen_expr] in Hg. ginv1 Hg. cbn [eval].
  eapply ends_sx with (k' := (rset rs rax (wbool b), m, fl)); [exact Hc|destruct b; reflexivity|].
  finish (same_refl hi (rs rsp) m); [|inv_tac; exact Hinv].
  split; [now rs_simp|]. unfold is_addr. destruct b; cbn [wbool]; lia.
Qed.

Lemma E_str N t x : E_for (S N) (ELitStr t x).
Proof.
  intros d slot T B us r h s c s' n rs m fl Hg Hc Hlit Hsafe Hlen Hinv Hlow.
  cbn [gen_expr] in Hg. ginv1 Hg. cbn [eval].
  destruct SL as (SL & _). apply Hlit in SL.
  destruct (lk_lit _ _ _ _ _ _ _ _ _ _ _ _ _ _ _ _ _ _ L _ _ SL) as [E1 E2].
  eapply ends_sx; [exact Hc|cbn [sx exec]; reflexivity|].
  finish (same_refl hi (rs rsp) m); [|inv_tac; exact Hinv].
  split; [|exact E2]. rs_simp. rewrite E1. apply word_id. exact E2.
Qed.

Lemma E_fun N t f ext : E_for (S N) (EFun t f ext).
Proof.
  intros d slot T B us r h s c s' n rs m fl Hg Hc Hlit Hsafe Hlen Hinv Hlow.
  cbn [gen_expr] in Hg. cbn [eval].
  destruct (lk_fun _ _ _ _ _ _ _ _ _ _ _ _ _ _ _ _ _ _ L f) as [E1 E2].
  destruct ext; ginv1 Hg; (eapply ends_sx; [exact Hc|sx_simp; reflexivity|]);
    (finish (same_refl hi (rs rsp) m); [|inv_tac; exact Hinv]).
  - split; [now rs_simp|]. unfold is_addr. lia.
  - split; [|exact E2]. rs_simp. rewrite E1, Z.add_0_r. now apply word_id.
Qed.

Lemma E_off N t z : E_for (S N) (EOff t z).
Proof.
  intros d slot T B us r h s c s' n rs m fl Hg Hc Hlit Hsafe Hlen Hinv Hlow.
  cbn [gen_expr] in Hg. ginv1 Hg. cbn [eval safe] in *.
  eapply ends_sx; [exact Hc|cbn [sx exec read]; rewrite Hsafe; reflexivity|].
  finish (same_refl hi (rs rsp) m); [|inv_tac; exact Hinv].
  split; [|apply word_range]. rs_simp. apply word_word.
Qed.

Lemma E_type N t : E_for (S N) (EType t).
Proof.
  intros d slot T B us r h s c s' n rs m fl Hg Hc Hlit Hsafe Hlen Hinv Hlow.
  cbn [gen_expr] in Hg. ginv1 Hg. cbn [eval].
  finish (same_refl hi (rs rsp) m); [exact I|exact Hinv].
Qed.

(** The address of a variable's slot. *)
Lemma slot_ea slot T B sp us r h rs m x : INV slot T B sp us r h rs m -> slot x <> 0 ->
  ea rs (Mem rbp None (- slot x) 0 false true) = B - slot x /\ lo <= B - slot x /\ B - slot x + 8 <= B.
Proof.
  intros [A1 A2 A3 A4 A5 A6 A7 A8] Hx. pose proof A1 as [B1 B2 [B3 B3'] B4 B5 B6].
  destruct (B5 x Hx) as [B7 B8]. pose proof Hst as Hs. unfold stack_ok in Hs.
  split; [|lia]. unfold ea. cbn [m_disp m_base m_idx]. rewrite A2. rewrite word_id; [lia|]. unfold is_word. lia.
Qed.

Lemma E_var N t x : E_for (S N) (EVar t x).
Proof.
  intros d slot T B us r h s c s' n rs m fl Hg Hc Hlit Hsafe Hlen Hinv Hlow.
  cbn [gen_expr] in Hg. ginv1 Hg. cbn [eval].
  destruct (r x) as [v|] eqn:Ex; [|exact I].
  destruct (iv_env _ _ _ _ _ _ _ _ _ _ _ _ Hinv x v Ex) as (E1 & E2 & E3).
  destruct (slot_ea _ _ _ _ _ _ _ _ _ _ Hinv E2) as (E4 & E5 & E6).
  eapply ends_sx; [exact Hc|sx_simp; reflexivity|].
  finish (same_refl hi (rs rsp) m); [|inv_tac; exact Hinv].
  split; [|exact E1]. rs_simp. rewrite E4, E3. now apply word_id.
Qed.

Lemma label_at p l : nth_error P p = Some (ELabel l) -> find_label P l = Some p.
Proof. exact (lk_labels _ _ _ _ _ _ _ _ _ _ _ _ _ _ _ _ _ _ L p l). Qed.

Ltac gname e G := match goal with H : gen_expr _ e _ _ = Some _ |- _ => rename H into G end.
Ltac geff G := let A := fresh "A" in let B := fresh "B" in let C := fresh "C" in
  pose proof (gen_expr_eff _ _ _ _ _ _ G) as (A & B & C); cbn in A, B, C.
Ltac lits := first [eassumption
  | match goal with E : extends (g_lits ?a) (g_lits ?b) |- lits_ok ?a => apply (lits_back a b E); lits end].
Ltac one_step_push Q W V := eapply ends_steps;
  [apply steps_one; cbn [step]; rewrite Q; cbn [exec read push]; rewrite W, V; reflexivity|].
Ltac one_step Q := eapply ends_steps; [apply steps_one; cbn [step]; rewrite Q; reflexivity|].

Lemma E_cond N t c a b : E_ok N -> E_for (S N) (ECond t c a b).
Proof.
  intros IH d slot T B us r h s c0 s' n rs m fl Hg Hc Hlit Hsafe Hlen Hinv Hlow.
  cbn [gen_expr] in Hg. ginv1 Hg.
  gname c Gc. gname a Ga. gname b Gb. geff Gc. geff Ga. geff Gb.
  cbn [safe] in Hsafe. rewrite !andb_true_iff in Hsafe. destruct Hsafe as [[Sc Sa] Sb].
  cbn [eval pushes] in Hlow |- *.
  set (els := LGen PElse _) in *. set (exit := LGen PExit _) in *.
  eapply one_operand; [exact IH|exact Gc|exact Hc|lits|exact Sc|exact Hlen|exact Hinv|lia|]. intros w h1 rs1 m1 fl1 Wa Ha Hs1 Hi1. skip_code Hc 1.
  pose proof (inv_rsp_eq _ _ _ _ _ _ _ _ _ _ _ _ _ _ Hinv Hi1) as Hrsp.
  destruct (as_bool w) as [x|] eqn:Ea; [|exact I]. apply as_bool_cases in Ea.
  apply code_at_cons in Hc as [Q1 Hc]. apply code_at_cons in Hc as [Q2 Hc].
  cbn [app] in Hc. apply code_at_cons in Hc as [Q3 Hc]. apply code_at_cons in Hc as [Q4 Hc].
  apply code_at_app in Hc as [Hca Hc]. apply code_at_cons in Hc as [Q5 Hc]. apply code_at_cons in Hc as [Q6 Hc].
  apply code_at_app in Hc as [Hcb Hc]. apply code_at_cons in Hc as [Q7 _].
  one_step Q1. one_step Q2. one_step Q3. 
  rewrite Ea in Ha. destruct x; cbn [wbool] in Ha.
  - eapply ends_steps; [apply steps_one; cbn [step]; rewrite Q4, Ha; cbn; reflexivity|].
    eapply ends_then.
    + eapply (IH a); [exact Ga|exact Hca|lits|exact Sa| | |].
      * unfold in_use_types in *. cbn. congruence.
      * cbn. rewrite A. exact Hi1.
      * lia.
    + intros [v h2] st2 (rs2 & m2 & fl2 & -> & Hv & Hs2 & Hi2).
      eexists. split.
      { eapply steps_step; [cbn [step]; rewrite Q5; rewrite (label_at _ _ Q7); reflexivity|].
        apply steps_one. cbn [step]. rewrite Q7. reflexivity. }
      cbn in Hi2. rewrite A in Hi2. rewrite Hrsp in Hs2.
      exists rs2, m2, fl2. split; [f_equal; len|]. split; [exact Hv|]. split; [|exact Hi2].
      eapply same_trans; [|exact Hs1|exact Hs2]. lia.
  - eapply ends_steps; [apply steps_one; cbn [step]; rewrite Q4, Ha; cbn [Z.eqb]; rewrite (label_at _ _ Q6); reflexivity|].
    one_step Q6.
    eapply ends_then.
    + eapply (IH b); [exact Gb|exact Hcb|lits|exact Sb| | |].
      * unfold in_use_types in *. congruence.
      * rewrite A0, A. exact Hi1.
      * lia.
    + intros [v h2] st2 (rs2 & m2 & fl2 & -> & Hv & Hs2 & Hi2).
      eexists. split.
      { apply steps_one. cbn [step]. rewrite Q7. reflexivity. }
      rewrite A0, A in Hi2. rewrite Hrsp in Hs2.
      exists rs2, m2, fl2. split; [f_equal; len|]. split; [exact Hv|]. split; [|exact Hi2].
      eapply same_trans; [|exact Hs1|exact Hs2]. lia.
Qed.

(* ----------------------------------------------------------- fields and array elements *)

Ltac at_nth Q := lazymatch type of Q with nth_error _ ?q = _ =>
  lazymatch goal with |- nth_error _ ?p = _ => replace p with q by len end end; exact Q.

Lemma A_dot N d ta slot T B us r h s c s' n rs m fl t l rt : E_ok N ->
  gen_expr slot (EDot t l rt) ta s = Some (c, s') -> code_at P n c -> lits_ok s' ->
  safe (List.length us) (EDot t l rt) = true -> List.length us = List.length (in_use_types s) ->
  INV slot T B (g_sp s) us r h rs m -> LOW d + 8 * pushes (EDot t l rt) <= rs rsp ->
  ENDS (MState n (rs, m, fl)) (EVAL_ADDR (S N) d r h (EDot t l rt))
    (addr_post ta slot T B (g_sp s) us r (n + (List.length c - 1)) rs m).
Proof.
  intros IH Hg Hc Hlit Hsafe Hlen Hinv Hlow.
  cbn [gen_expr] in Hg. ginv1 Hg.
  cbn [safe] in Hsafe. rewrite !andb_true_iff in Hsafe. destruct Hsafe as [Sl Sr].
  cbn [eval_addr pushes] in Hlow |- *.
  eapply two_fetched with (x := rbx) (mid := []) (mid2 := []) (f := fun x => x) (g := fun x => x);
    eauto using none_ok, free_rbx.
  intros a b h1 rs1 m1 fl1 Wa Wb Ha Hb Hs1 Hi1. cbv beta in Ha, Hb.
  skip_code Hc 5. at_code Hc. apply code_at_cons in Hc as [Q _].
  apply ends_val. exists rs1, m1, fl1. eexists. split; [f_equal; len|].
  split; [at_nth Q|].
  split; [reflexivity|]. split; [reflexivity|]. split; [|split; [exact Hs1|exact Hi1]].
  unfold ea. cbn [m_disp m_base m_idx m_scl]. cbn [Z.ltb Z.compare].
  rewrite Ha, Hb. rewrite (word_id a), (word_id b) by assumption. f_equal. lia.
Qed.

Lemma A_index N d ta slot T B us r h s c s' n rs m fl t l rt : E_ok N ->
  gen_expr slot (EIndex t l rt) ta s = Some (c, s') -> code_at P n c -> lits_ok s' ->
  safe (List.length us) (EIndex t l rt) = true -> List.length us = List.length (in_use_types s) ->
  INV slot T B (g_sp s) us r h rs m -> LOW d + 8 * pushes (EIndex t l rt) <= rs rsp ->
  ENDS (MState n (rs, m, fl)) (EVAL_ADDR (S N) d r h (EIndex t l rt))
    (addr_post ta slot T B (g_sp s) us r (n + (List.length c - 1)) rs m).
Proof.
  intros IH Hg Hc Hlit Hsafe Hlen Hinv Hlow.
  cbn [gen_expr] in Hg. ginv1 Hg.
  cbn [safe] in Hsafe. rewrite !andb_true_iff in Hsafe. destruct Hsafe as [Sl Sr].
  cbn [eval_addr pushes] in Hlow |- *.
  eapply two_operands with (mid := []) (f := fun x => x); eauto; [exact Hc|exact mid_none|].
  intros a i h1 rs1 m1 fl1 Wa Wi Hi Ha Hs1 Hi1. cbv beta in Ha. rewrite word_id in Ha by exact Wa.
  skip_code Hc 3. at_code Hc.
  destruct (ok8 heap a) eqn:Hok; [|exact I]. cbv zeta.
  pose proof (agree_load heap m1 h1 a (iv_heap _ _ _ _ _ _ _ _ _ _ _ _ Hi1) Hok) as Hload.
  destruct (ival (load h1 a) <? 0) eqn:Hneg; [exact I|].
  cbn [app] in Hc.
  apply code_at_cons in Hc as [Q1 Hc]. apply code_at_cons in Hc as [Q2 Hc]. apply code_at_cons in Hc as [Q3 Hc].
  apply code_at_cons in Hc as [Q4 Hc]. apply code_at_cons in Hc as [Q5 Hc]. apply code_at_cons in Hc as [Q6 Hc].
  apply code_at_cons in Hc as [Q7 Hc]. apply code_at_cons in Hc as [Q8 Hc]. apply code_at_cons in Hc as [Q9 _].
  one_step Q1. one_step Q2.
  set (rs2 := rset (rset rs1 rax _) rbx _).
  assert (I2 : INV slot T B (g_sp s + 1) us r h1 rs2 m1) by (unfold rs2; inv_tac; exact Hi1).
  assert (B2 : rs2 rbx = word (ival i)) by (unfold rs2; rs_simp; rewrite sar1, word_word, Hi; reflexivity).
  assert (S2 : rs2 rsp = rs1 rsp) by (unfold rs2; now rs_simp).
  clearbody rs2.
  one_step Q3.
  assert (E3 : ea rs2 (Mem rsp None 0 0 false true) = rs1 rsp).
  { unfold ea. cbn [m_disp m_base m_idx]. rewrite S2, Z.add_0_l, Z.add_0_r. apply word_id. eapply inv_word; eauto. }
  change (Mem rsp None 0 0 false true) with (Mem rsp None 0 0 false true). rewrite E3, Ha.
  rewrite (word_id a) by exact Wa.
  one_step Q4.
  assert (E4 : ea (rset rs2 rax a) (Mem rax None 0 0 false true) = a).
  { unfold ea. cbn [m_disp m_base m_idx]. rs_simp. rewrite Z.add_0_l, Z.add_0_r. now apply word_id. }
  rewrite E4, Hload. rewrite (word_id (load h1 a)) by apply load_range.
  one_step Q5. rs_simp. rewrite sar1.
  one_step Q6. rs_simp. rewrite B2.
  set (rs3 := rset (rset (rset rs2 rax a) rax (load h1 a)) rax (word (ival (load h1 a)))).
  assert (I3 : INV slot T B (g_sp s + 1) us r h1 rs3 m1) by (unfold rs3; inv_tac; exact I2).
  assert (B3 : rs3 rbx = word (ival i)) by (unfold rs3; now rs_simp).
  assert (S3 : rs3 rsp = rs1 rsp) by (unfold rs3; now rs_simp).
  clearbody rs3.
  one_step Q7.
  set (rs4 := rset (rset rs3 rsp _) rax _).
  assert (I4 : INV slot T B (g_sp s) us r h1 rs4 m1) by (unfold rs4; inv_tac; [exact I3|apply Hinv]).
  assert (B4 : rs4 rbx = word (ival i)) by (unfold rs4; now rs_simp).
  assert (A4 : rs4 rax = a) by (unfold rs4; rs_simp; now rewrite S3).
  clearbody rs4.
  pose proof (ival_range i) as Ri. pose proof (ival_range (load h1 a)) as Rl.
  destruct ((0 <=? ival i) && (ival i <? ival (load h1 a))) eqn:Hin.
  - eapply ends_steps.
    { apply steps_one. cbn [step]. rewrite Q8.
      replace (word (ival (load h1 a)) <=? word (ival i)) with false; [reflexivity|].
      symmetry. apply Z.leb_gt. unfold word. lia. }
    apply ends_val. exists rs4, m1. eexists. exists (Mem rax (Some rbx) 8 8 false true).
    split; [f_equal; len|]. split; [at_nth Q9|].
    split; [reflexivity|]. split; [reflexivity|]. split; [|split; [exact Hs1|exact I4]].
    unfold ea. cbn [m_disp m_base m_idx m_scl]. cbn [Z.ltb Z.compare Pos.compare Pos.compare_cont].
    rewrite A4, B4. apply word_cong. destruct (word_ex (ival i)) as [k ->]. exists (8 * k). lia.
  - destruct (lk_ioob _ _ _ _ _ _ _ _ _ _ _ _ _ _ _ _ _ _ L) as [p Hp].
    exists p, rs4, m1. eexists. split; [exact Hp|]. split.
    { apply steps_one. cbn [step]. rewrite Q8.
      replace (word (ival (load h1 a)) <=? word (ival i)) with true; [rewrite Hp; reflexivity|].
      symmetry. apply Z.leb_le. unfold word. lia. }
    split; [exact B4|]. split; [exact A4|]. apply I4.
Qed.

Lemma A_step N : E_ok N -> A_ok (S N).
Proof.
  intros IH d ta slot T B us r h s c s' n rs m fl e Hg Hc Hlit Hsafe Hlen Hinv Hlow.
  destruct e; try exact I.
  - eapply A_dot; eauto.
  - eapply A_index; eauto.
Qed.

(** Reading what is at an address. *)
Lemma E_read N e : A_ok N ->
  (forall d r h, EVAL (S N) d r h e = bind (EVAL_ADDR N d r h e) (fun '(a, h) => if ok8 heap a then Val (Some (load h a), h) else Stuck)) ->
  (forall slot s c s', gen_expr slot e false s = Some (c, s') -> (0 < List.length c)%nat) ->
  E_for (S N) e.
Proof.
  intros IH He Hpos d slot T B us r h s c s' n rs m fl Hg Hc Hlit Hsafe Hlen Hinv Hlow.
  rewrite He. eapply ends_bind.
  - eapply (IH d false); eauto.
  - intros [a h1] st1 (rs1 & m1 & fl1 & mo & -> & Q & M1 & M2 & M3 & Hs1 & Hi1).
    destruct (ok8 heap a) eqn:Hok; [|exact I].
    eapply ends_steps.
    { apply steps_one. cbn [step]. rewrite Q. cbn [exec read write]. rewrite M1, M2. cbn [andb negb]. reflexivity. }
    rewrite M3. apply Hpos in Hg.
    finish Hs1; [|inv_tac; exact Hi1].
    rewrite (agree_load heap m1 h1 a (iv_heap _ _ _ _ _ _ _ _ _ _ _ _ Hi1) Hok).
    split; [|apply load_range]. rs_simp. apply word_id. apply load_range.
Qed.
Lemma E_dot N t l rt : A_ok N -> E_for (S N) (EDot t l rt).
Proof.
  intros IH. apply E_read; auto. intros slot s c s' Hg. cbn [gen_expr] in Hg. ginv1 Hg. rewrite !app_length. cbn. lia.
Qed.
Lemma E_index N t l rt : A_ok N -> E_for (S N) (EIndex t l rt).
Proof.
  intros IH. apply E_read; auto. intros slot s c s' Hg. cbn [gen_expr] in Hg. ginv1 Hg. rewrite !app_length. cbn. lia.
Qed.

(* -------------------------------------------------------------------------- arguments *)

Definition conv1 (fi : fninfo) (t : ty) (v : value) : value :=
  if fi_external fi && fi_raw fi then raw_arg t v else v.
Lemma conv_cons fi a args v vs : conv fi (a :: args) (v :: vs) = conv1 fi (typ a) v :: conv fi args vs.
Proof. unfold conv, conv1. now destruct (fi_external fi && fi_raw fi). Qed.

Lemma in_use_snoc us rs x v rs' : in_use us rs -> nth_error arg_regs (List.length us) = Some x ->
  (forall y, y <> x -> rs' y = rs y) -> (forall w, v = Some w -> rs' x = w /\ is_word w) -> in_use (us ++ [v]) rs'.
Proof.
  intros [H1 H2] Hx Ho Hv. split.
  - intros i w y Hi Hy. destruct (Nat.lt_ge_cases i (List.length us)) as [Hl|Hl].
    + rewrite nth_error_app1 in Hi by exact Hl. rewrite Ho; [eauto|]. intros ->.
      pose proof (arg_reg_inj _ _ _ Hx Hy). lia.
    + rewrite nth_error_app2 in Hi by exact Hl. destruct (i - List.length us)%nat eqn:E.
      * injection Hi as ->. assert (i = List.length us) by lia. subst i. rewrite Hx in Hy. injection Hy as ->.
        now apply Hv.
      * destruct n; discriminate.
  - intros w Hw. apply in_app_or in Hw as [Hw|[->|[]]]; [eauto|]. now apply Hv.
Qed.

Lemma pass_run fi i x t v rs m fl : nth_error arg_regs i = Some x -> result_in v rs ->
  exists rs' fl', sx laddr (pass_code fi x t) (rs, m, fl) = Some (rs', m, fl') /\
    (forall y, y <> x -> rs' y = rs y) /\ (forall w, conv1 fi t v = Some w -> rs' x = w /\ is_word w).
Proof.
  intros Hx Hv. unfold pass_code, conv1.
  destruct (fi_external fi && fi_raw fi).
  2:{ eexists _, _. split; [reflexivity|]. split.
      - intros y Hy. apply rset_other. congruence.
      - intros w ->. destruct Hv as [Hv Hw]. rewrite rset_same, Hv. split; [now apply word_id|exact Hw]. }
  assert (Hd : forall k, raw_arg t v = Some k -> match ty_kind t with TString | TArray | TBytes | TInteger => False | _ => True end ->
    rs rax = k /\ is_word k).
  { intros k Hk Ht. destruct v as [w|]; [|discriminate]. cbn [raw_arg] in Hk. destruct Hv as [Hv Hw].
    destruct (ty_kind t); try (now elim Ht); injection Hk as ->; auto. }
  destruct (ty_kind t) eqn:Et.
  all: try (eexists _, _; split; [reflexivity|]; split;
      [intros y Hy; apply rset_other; congruence
      |intros w Hw; rewrite rset_same; destruct (Hd w Hw I) as [D1 D2]; rewrite D1; split; [now apply word_id|exact D2]]).
  all: eexists _, _; (split; [cbn [sx exec read write m_deref m_indir andb negb]; reflexivity|]); split;
      [intros y Hy; rewrite !rset_other by congruence; reflexivity|];
      intros k Hk; destruct v as [w|]; [|discriminate]; cbn [raw_arg] in Hk; rewrite Et in Hk; injection Hk as <-;
      destruct Hv as [Hv Hw]; (split; [|apply word_range]); rewrite !rset_same.
  - rewrite sar1, Hv. now rewrite (word_id w) by exact Hw.
  - unfold ea. cbn [m_disp m_base m_idx]. rewrite rset_same, Hv, (word_id w) by exact Hw. f_equal. lia.
  - unfold ea. cbn [m_disp m_base m_idx]. rewrite rset_same, Hv, (word_id w) by exact Hw. f_equal. lia.
  - unfold ea. cbn [m_disp m_base m_idx]. rewrite rset_same, Hv, (word_id w) by exact Hw. f_equal. lia.
Qed.

Lemma Args_step N : E_ok N -> Args_ok N -> Args_ok (S N).
Proof.
  intros IHe IHa d slot T B us r h s c s' n rs m fl fi args Hg Hc Hlit Hsafe Hlen Hinv Hlow.
  destruct args as [|a args]; cbn [gen_args] in Hg; cbn [eval_args].
  - ginv1 Hg. apply ends_val. split; [reflexivity|]. exists rs, m, fl. split; [f_equal; cbn; lia|].
    split; [apply same_refl|]. replace (conv fi [] []) with (@nil value).
    + now rewrite app_nil_r.
    + unfold conv. now destruct (fi_external fi && fi_raw fi).
  - apply seq_inv in Hg as (c1 & s1 & c2 & G1 & Hg & ->). apply seq_inv in Hg as (c3 & s3 & c4 & G3 & Hg & ->).
    geff G1. apply pass_arg_inv in G3 as (x & Hx & -> & P1 & P2 & P3 & P4).
    assert (Ea : forall e, In e args -> forall ta s c s', gen_expr slot e ta s = Some (c, s') -> eff s s')
      by (intros; eapply gen_expr_eff; eauto).
    assert (P5 : extends (g_lits s3) (g_lits s')).
    { eapply gen_args_eff; [|exact Hg]. apply Forall_forall. intros; eapply gen_expr_eff; eauto. }
    cbn [safe_args] in Hsafe. apply andb_true_iff in Hsafe as [Sa Ss].
    cbn [pushes_args] in Hlow.
    apply code_at_app in Hc as [Hc1 Hc]. apply code_at_app in Hc as [Hc3 Hc].
    eapply ends_bind.
    { eapply (IHe a); [exact G1|exact Hc1| |exact Sa|exact Hlen|exact Hinv|lia].
      eapply lits_back; [|exact Hlit]. eauto using extends_trans. }
    intros [v h1] st1 (rs1 & m1 & fl1 & -> & Hv & Hs1 & Hi1).
    pose proof (inv_rsp_eq _ _ _ _ _ _ _ _ _ _ _ _ _ _ Hinv Hi1) as Hrsp.
    destruct (pass_run fi _ x (typ a) v rs1 m1 fl1 Hx Hv) as (rs2 & fl2 & E1 & E2 & E3).
    eapply ends_sx; [exact Hc3|exact E1|].
    pose proof (arg_reg_not _ _ Hx) as (X1 & X2 & X3 & X4).
    assert (Hi2 : INV slot T B (g_sp s3) (us ++ [conv1 fi (typ a) v]) r h1 rs2 m1).
    { rewrite P1, A. destruct Hi1 as [J1 J2 J3 J4 J5 J6 J7 J8].
      constructor; rewrite ?E2 by congruence; auto. eapply in_use_snoc; eauto. }
    assert (Hl2 : List.length (us ++ [conv1 fi (typ a) v]) = List.length (in_use_types s3)).
    { unfold in_use_types in *. rewrite P2. cbn [hd]. rewrite !app_length. rewrite B0. cbn [List.length]. lia. }
    replace (S (List.length us)) with (List.length (us ++ [conv1 fi (typ a) v])) in Hg, Ss by (rewrite app_length; cbn; lia).
    eapply ends_bind.
    { eapply (IHa d slot T B (us ++ [conv1 fi (typ a) v])); [exact Hg|exact Hc|exact Hlit|exact Ss|exact Hl2|exact Hi2|].
      rewrite E2 by congruence. lia. }
    intros [vs h2] st2 (Hn & rs3 & m3 & fl3 & -> & Hs3 & Hi3).
    apply ends_val. split; [cbn [List.length]; lia|]. exists rs3, m3, fl3.
    split; [f_equal; len|]. split.
    + rewrite E2 in Hs3 by congruence. rewrite Hrsp in Hs3. eapply same_trans; [|exact Hs1|exact Hs3]. lia.
    + rewrite conv_cons, <- app_assoc in *. cbn [app] in Hi3. rewrite P1, A in Hi3. exact Hi3.
Qed.

(* -------------------------------------------------------------------------------- calls *)

Lemma in_use_nil rs : in_use [] rs.
Proof. split; [intros i w x Hi; destruct i; discriminate|intros w []]. Qed.
Lemma inv_no_use slot T B sp us r h rs m : INV slot T B sp us r h rs m -> INV slot T B sp [] r h rs m.
Proof. intros [J1 J2 J3 J4 J5 J6 J7 J8]. constructor; auto. apply in_use_nil. Qed.

Definition odd_word (odd : bool) : Z := if odd then 1 else 0.
Definition saved_word (cl : callee) : Z := match cl with CSaved => 1 | _ => 0 end.
Definition tag_result (fi : fninfo) : bool := fi_external fi && fi_raw fi && kind_eqb (fi_ret fi) TInteger.
Definition tag_code (b : bool) : list event :=
  if b then [EIns shlq [OImm 1; OReg rax]; EIns orq [OImm 1; OReg rax]] else [].
Definition call_ins (cl : callee) : event :=
  match cl with
  | CSaved => EIns call [OMem (Mem rax None 0 0 true false)]
  | CSlot a => EIns call [OMem (Mem rbp None (- a) 0 true true)]
  | CName f => EIns call [OFn f]
  end.
Definition before_code (fi : fninfo) (cl : callee) (odd : bool) : list event :=
  (if fi_variadic fi then [EIns movq [OImm 0; OReg rax]] else []) ++
  (match cl with CSaved => [EIns popq [OReg rax]] | _ => [] end) ++
  (if odd then [EIns subq [OImm 8; OReg rsp]] else []).
Definition after_code (tagb odd : bool) (k : nat) : list event :=
  tag_code tagb ++ (if odd then [EIns addq [OImm 8; OReg rsp]] else []) ++ unspill_code 0 k.
Lemma call_code_split fi cl odd gc k :
  call_code_of fi cl odd gc k = before_code fi cl odd ++ [call_ins cl] ++ tag_code (tag_result fi) ++ gc ++
    (if odd then [EIns addq [OImm 8; OReg rsp]] else []) ++ unspill_code 0 k.
Proof. unfold call_code_of, before_code, tag_code, tag_result, call_ins. now rewrite <- !app_assoc. Qed.

Lemma before_call fi cl odd slot T B sp us r h rs m fl :
  INV slot T B (sp + saved_word cl) us r h rs m -> T <= sp -> odd = negb (sp mod 2 =? 0) -> lo <= B - 8 * sp - 8 ->
  exists rs' fl', sx laddr (before_code fi cl odd) (rs, m, fl) = Some (rs', m, fl') /\
    INV slot T B (sp + odd_word odd) us r h rs' m /\ rs' rsp mod 16 = 0 /\
    (cl = CSaved -> rs' rax = load m (rs rsp)).
Proof.
  intros Hi HT Ho Hlo.
  set (rs1 := if fi_variadic fi then rset rs rax (word 0) else rs).
  assert (Hi1 : INV slot T B (sp + saved_word cl) us r h rs1 m).
  { unfold rs1. destruct (fi_variadic fi); [|exact Hi]. inv_tac. exact Hi. }
  assert (Hr1 : rs1 rsp = rs rsp) by (unfold rs1; destruct (fi_variadic fi); rs_simp; reflexivity).
  set (rs2 := match cl with CSaved => rset (rset rs1 rsp (word (rs1 rsp + 8))) rax (load m (rs1 rsp)) | _ => rs1 end).
  assert (Hi2 : INV slot T B sp us r h rs2 m).
  { unfold rs2. destruct cl; cbn [saved_word] in Hi1; rewrite ?Z.add_0_r in Hi1; try exact Hi1.
    apply inv_pop'; [exact Hst|exact Hi1|exact HT|apply free_rax|discriminate|discriminate]. }
  assert (Hs2 : cl = CSaved -> rs2 rax = load m (rs rsp)).
  { intros ->. unfold rs2. rs_simp. now rewrite Hr1. }
  set (rs3 := if odd then rset rs2 rsp (word (rs2 rsp - 8)) else rs2).
  assert (Hw : word (rs2 rsp - 8) = rs2 rsp - 8).
  { apply word_id. pose proof Hi2 as [? ? R ? ? ? ? ?]. pose proof (inv_word _ _ _ _ _ _ _ _ _ Hi2).
    pose proof Hst as [? ?]. unfold is_word in *. lia. }
  exists rs3, (if odd then None else fl). split; [|split; [|split]].
  - unfold before_code. rewrite sx_app.
    assert (E1 : sx laddr (if fi_variadic fi then [EIns movq [OImm 0; OReg rax]] else []) (rs, m, fl) = Some (rs1, m, fl)).
    { unfold rs1. destruct (fi_variadic fi); reflexivity. }
    rewrite E1. cbv beta iota.
    assert (E2 : sx laddr (match cl with CSaved => [EIns popq [OReg rax]] | _ => [] end) (rs1, m, fl) = Some (rs2, m, fl)).
    { unfold rs2. destruct cl; reflexivity. }
    rewrite sx_app, E2. unfold rs3. destruct odd; reflexivity.
  - unfold rs3. destruct odd; cbn [odd_word]; [|now rewrite Z.add_0_r].
    rewrite Hw. destruct Hi2 as [J1 J2 J3 J4 J5 J6 J7 J8].
    constructor; rs_simp; auto; try lia.
    apply in_use_set; auto. intros i Hr. apply arg_reg_not in Hr. tauto.
  - destruct Hi2 as [J1 J2 J3 J4 J5 J6 J7 J8]. destruct J1 as [B1 _ _ _ _ _].
    unfold rs3. destruct odd; rs_simp; rewrite ?Hw, J3.
    + destruct (sp mod 2 =? 0) eqn:E; [discriminate|]. lia.
    + destruct (sp mod 2 =? 0) eqn:E; [|discriminate]. lia.
  - intros E. unfold rs3. destruct odd; rs_simp; auto.
Qed.

Lemma after_call tagb odd us slot T B sp r h v rs m fl p :
  code_at P p (after_code tagb odd (List.length us)) -> (List.length us <= 6)%nat ->
  INV slot T B (sp + Z.of_nat (List.length us) + odd_word odd) [] r h rs m -> T <= sp -> result_in v rs ->
  (forall w, In (Some w) us -> is_word w) ->
  (forall j w, nth_error us j = Some (Some w) ->
     load m (B - 8 * (sp + Z.of_nat (List.length us)) + 8 * Z.of_nat j) = w) ->
  exists rs' fl', STEPS (MState p (rs, m, fl)) (MState (p + List.length (after_code tagb odd (List.length us))) (rs', m, fl')) /\
    result_in (if tagb then option_map wint v else v) rs' /\ INV slot T B sp us r h rs' m.
Proof.
  intros Hc Hk Hi HT Hv Hw Hl.
  set (k := Z.of_nat (List.length us)) in *.
  assert (H1 : exists rs1 fl1, sx laddr (tag_code tagb) (rs, m, fl) = Some (rs1, m, fl1) /\
    result_in (if tagb then option_map wint v else v) rs1 /\ forall y, y <> rax -> rs1 y = rs y).
  { destruct tagb; unfold tag_code.
    - eexists _, _. split; [sx_simp; reflexivity|]. split; [|intros y Hy; rewrite !rset_other by congruence; reflexivity].
      destruct v as [w|]; [|exact I]. destruct Hv as [Hv _]. cbn [option_map result_in]. split; [|apply wint_range].
      rs_simp. rewrite tag_spec, Hv. reflexivity.
    - exists rs, fl. auto. }
  destruct H1 as (rs1 & fl1 & S1 & V1 & O1).
  assert (Hi1 : INV slot T B (sp + k + odd_word odd) [] r h rs1 m).
  { eapply inv_after; [exact Hi|apply same_refl|apply Hi|apply O1; discriminate|apply O1; discriminate|apply in_use_nil]. }
  assert (H2 : exists rs2 fl2, sx laddr (if odd then [EIns addq [OImm 8; OReg rsp]] else []) (rs1, m, fl1) = Some (rs2, m, fl2) /\
    rs2 rsp = B - 8 * (sp + k) /\ forall y, y <> rsp -> rs2 y = rs1 y).
  { pose proof Hi1 as [J1 J2 J3 J4 J5 J6 J7 J8]. pose proof (inv_word _ _ _ _ _ _ _ _ _ Hi1) as Hw1.
    destruct J1 as [B1 B2 B3 B4 _ _]. pose proof Hst as [? ?].
    destruct odd; cbn [odd_word] in *.
    - eexists _, _. split; [sx_simp; reflexivity|]. split; [|intros y Hy; rewrite rset_other by congruence; reflexivity].
      rs_simp. rewrite J3. change (word 8) with 8. rewrite word_id; unfold is_word in *; lia.
    - exists rs1, fl1. split; [reflexivity|]. split; [lia|auto]. }
  destruct H2 as (rs2 & fl2 & S2 & R2 & O2).
  pose proof Hi1 as [J1 J2 J3 J4 J5 J6 J7 J8]. pose proof J1 as [B1 B2 [B3 B3'] B4 B5 B6]. pose proof Hst as [Hs1 Hs2].
  assert (Hlo2 : lo <= rs2 rsp). { destruct odd; cbn [odd_word] in *; lia. }
  destruct (unspill_run laddr (List.length us) 0 rs2 m fl2 ltac:(lia) ltac:(lia) ltac:(fold k; lia)) as (rs3 & S3 & R3 & O3 & U3).
  fold k in R3.
  exists rs3, fl2. split; [|split].
  - eapply sx_steps; [exact Hc|]. unfold after_code. rewrite sx_app, S1, sx_app, S2. exact S3.
  - assert (E : rs3 rax = rs1 rax).
    { rewrite O3; [apply O2; discriminate|discriminate|]. intros j Hj Hc'. apply arg_reg_not in Hc'. tauto. }
    destruct (if tagb then option_map wint v else v) as [w|]; [|exact I]. cbn [result_in] in *. now rewrite E.
  - assert (Eb : rs3 rbp = B).
    { rewrite O3; [rewrite O2 by discriminate; congruence|discriminate|]. intros j Hj Hc'. apply arg_reg_not in Hc'. tauto. }
    constructor; auto; try lia.
    split; [|exact Hw]. intros j w x Hj Hx.
    assert (j < List.length us)%nat by (apply nth_error_Some; now rewrite Hj).
    rewrite (U3 j x) by (auto; rewrite Nat.add_0_l; auto). rewrite R2. now apply Hl.
Qed.

(** A call as a whole; [K] is what the called function does. *)
Lemma call_ok N d slot T B us r h s c s' n rs0 rs m fl fi args cl w (K : list value -> memory -> res (value * memory)) :
  Args_ok N ->
  seq spill_registers (seq (gen_args slot fi 0 args) (finish_call fi cl)) s = Some (c, s') ->
  code_at P n c -> lits_ok s' -> safe_args 0 args = true -> List.length us = List.length (in_use_types s) ->
  INV slot T B (g_sp s) us r h rs m ->
  (cl = CSaved -> us = [] /\ T <= g_sp s - 1 /\ load m (rs rsp) = w) ->
  LOW d + 8 * (7 + pushes_args args) <= rs rsp -> rs0 rsp = rs rsp + 8 * saved_word cl ->
  (forall vs h2 p rsA mA flA spA,
     nth_error P p = Some (call_ins cl) -> (fi_external fi = false -> exists l, nth_error P (S p) = Some (EAddr l)) ->
     (match cl with CSlot a => -32768 <= - a <= 32767 | _ => True end) ->
     INV slot T B spA (conv fi args vs) r h2 rsA mA -> rsA rsp mod 16 = 0 -> LOW d <= rsA rsp ->
     (cl = CSaved -> rsA rax = w) -> List.length vs = List.length args ->
     ENDS (MState p (rsA, mA, flA)) (K vs h2)
       (fun '(v, h') st' => exists v0, v = (if tag_result fi then option_map wint v0 else v0) /\
          call_post (if fi_external fi then S p else S (S p)) rsA mA (v0, h') st')) ->
  ENDS (MState n (rs, m, fl)) (bind (EVAL_ARGS N d r h args) (fun '(vs, h) => K vs h))
    (expr_post slot T B (g_sp s - saved_word cl) us r (n + List.length c) rs0 m).
Proof.
  pose proof (Hlow d) as Hld. intros IHa Hg Hc Hlit Hsafe Hlen Hinv Hsaved Hlow Hrs0 HK.
  apply seq_inv in Hg as (c1 & s1 & c2 & G1 & Hg & ->). apply seq_inv in Hg as (c3 & s3 & c4 & G3 & Hg & ->).
  apply spill_registers_inv in G1 as (-> & I1 & I2 & I3 & I4).
  pose proof (gen_args_eff slot args) as Ea.
  assert (Fa : Forall (fun e => forall ta s c s', gen_expr slot e ta s = Some (c, s') -> eff s s') args)
    by (apply Forall_forall; intros; eapply gen_expr_eff; eauto).
  specialize (Ea Fa _ _ _ _ _ G3) as (J1 & J2 & J3). clear Fa.
  apply finish_call_inv in Hg as (gc & K1 & K2 & K3 & K4 & K5 & K6).
  rewrite J2, I3 in K3, K4, K5. cbn [tl] in K3, K4, K5. fold (in_use_types s) in K3, K4.
  rewrite <- Hlen in *. set (k := Z.of_nat (List.length us)) in *.
  fold (saved_word cl) in K3, K4.
  apply code_at_app in Hc as [Hc1 Hc]. apply code_at_app in Hc as [Hc3 Hc].
  pose proof (pushes_args_nonneg args) as Hp.
  assert (Hp' : 0 <= pushes_args args) by (apply Hp; apply Forall_forall; intros; apply pushes_nonneg). clear Hp.
  pose proof (inv_word _ _ _ _ _ _ _ _ _ Hinv) as Hwd.
  pose proof Hst as [Hst1 Hst2]. pose proof Hroom as Hrm.
  pose proof Hinv as [V1 V2 V3 V4 V5 V6 V7 V8]. pose proof V1 as [B1 B2 [B3 B3'] B4 B5 B6].
  destruct (spill_run laddr (List.length us) 0 rs m fl ltac:(lia) Hwd ltac:(fold k; nia)) as (rs1 & m1 & E1 & E2 & E3 & E4 & E5).
  fold k in E2, E4.
  eapply ends_sx; [exact Hc1|exact E1|].
  assert (Hs1 : SAME (rs rsp) m m1). { intros x Hx. apply E4. lia. }
  assert (Hi1 : INV slot T B (g_sp s1) [] r h rs1 m1).
  { constructor; auto.
    - rewrite E3 by discriminate. exact V2.
    - lia.
    - lia.
    - nia.
    - apply (env_rel_same heap lo hi slot T B r m m1 (rs rsp)); [exact V1|lia|exact Hs1|exact V6].
    - intros x Hx. rewrite E4; [now apply V7|]. destruct (Hhp x Hx) as [_ Hr]. nia.
    - apply in_use_nil. }
  eapply ends_bind.
  { eapply (IHa d slot T B []); [exact G3|exact Hc3| |exact Hsafe| |exact Hi1|rewrite E2; nia].
    - eapply lits_back; [|exact Hlit]. exact K6.
    - unfold in_use_types. rewrite I3. reflexivity. }
  intros [vs h2] st2 (Hn & rs2 & m2 & fl2 & -> & Hs2 & Hi2). cbn [app] in Hi2.
  pose proof (inv_rsp_eq _ _ _ _ _ _ _ _ _ _ _ _ _ _ Hi1 Hi2) as Hrsp2.
  rewrite K3, call_code_split in Hc. apply code_at_app in Hc as [Hb Hc]. apply code_at_cons in Hc as [Hcall Hc].
  set (sp := g_sp s3 - saved_word cl) in *.
  assert (Hsp : g_sp s1 = sp + saved_word cl) by (unfold sp; lia).
  rewrite Hsp in Hi2.
  assert (HT : T <= sp).
  { destruct cl; cbn [saved_word] in *; lia. }
  set (odd := negb (sp mod 2 =? 0)) in *.
  destruct (before_call fi cl odd slot T B sp (conv fi args vs) r h2 rs2 m2 fl2 Hi2 HT eq_refl) as (rsA & flA & A1 & A2 & A3 & A4).
  { assert (Hks : 0 <= saved_word cl /\ k <= 6) by (unfold k; destruct cl; cbn [saved_word]; lia). lia. }
  eapply ends_sx; [exact Hb|exact A1|].
  assert (AR : rsA rsp = B - 8 * (sp + odd_word odd)) by apply A2.
  assert (Ao : 0 <= odd_word odd <= 1) by (destruct odd; cbn; lia).
  assert (HlA : LOW d <= rsA rsp).
  { destruct cl; cbn [saved_word] in *; try nia. }
  eapply ends_then.
  { eapply HK; [exact Hcall| |exact K2|exact A2|exact A3|exact HlA| |exact Hn].
    - intros He. rewrite He in K1. destruct K1 as [l ->]. exists l.
      assert (Et : tag_result fi = false) by (unfold tag_result; rewrite He; reflexivity).
      rewrite Et in Hc. cbn [tag_code app] in Hc. apply code_at_cons in Hc as [Hc _]. exact Hc.
    - intros Ec. rewrite A4 by exact Ec. destruct (Hsaved Ec) as (Hu & _ & Hl).
      unfold k in *. rewrite Hu in *. cbn [List.length] in *. change (Z.of_nat 0) with 0 in *.
      rewrite Hrsp2, E2. rewrite (same_load hi (rs1 rsp) m1 m2); [|exact Hs2|lia|].
      + rewrite (same_load hi (rs rsp) m m1); [|exact Hs1|lia|lia]. rewrite <- Hl. f_equal. lia.
      + lia. }
  intros [v h3] st3 (v0 & Ev & rs3 & m3 & fl3 & -> & Hv & Rs & Rb & Ha & Hs3).
  assert (Hi3 : INV slot T B (sp + odd_word odd) [] r h3 rs3 m3).
  { eapply inv_after; [apply inv_no_use with (us := conv fi args vs); exact A2|exact Hs3|exact Ha|exact Rs|exact Rb|apply in_use_nil]. }
  match goal with |- exists st'', STEPS (MState ?p _) _ /\ _ => set (p3 := p) end.
  assert (Hc' : code_at P p3 (after_code (tag_result fi) odd (List.length us))).
  { unfold p3, after_code. destruct (fi_external fi) eqn:He.
    - rewrite K1 in Hc. cbn [app] in Hc. exact Hc.
    - destruct K1 as [l ->]. assert (Et : tag_result fi = false) by (unfold tag_result; rewrite He; reflexivity).
      rewrite Et in *. cbn [tag_code app] in Hc |- *. apply code_at_cons in Hc as [_ Hc]. exact Hc. }
  assert (Hsp' : g_sp s - saved_word cl + k = sp) by (unfold sp; lia).
  destruct (after_call (tag_result fi) odd us slot T B (g_sp s - saved_word cl) r h3 v0 rs3 m3 fl3 p3 Hc' I1) as (rs4 & fl4 & X1 & X2 & X3).
  - fold k. rewrite Hsp'. exact Hi3.
  - destruct cl; cbn [saved_word] in *; lia.
  - exact Hv.
  - apply V8.
  - fold k. rewrite Hsp'. intros j w' Hj.
    assert (Hjl : (j < List.length us)%nat) by (apply nth_error_Some; now rewrite Hj).
    assert (Hx : exists x, nth_error arg_regs j = Some x).
    { destruct (nth_error arg_regs j) as [x|] eqn:Ex; [eauto|]. apply nth_error_None in Ex. cbn in Ex. lia. }
    destruct Hx as [x Hx].
    assert (Hsw : saved_word cl = 0).
    { destruct cl; try reflexivity. destruct (Hsaved eq_refl) as (Hu & _). rewrite Hu in Hjl. cbn in Hjl. lia. }
    destruct V8 as [U1 U2].
    assert (Hw' : is_word w') by (apply U2; eapply nth_error_In; eauto).
    rewrite <- (word_id w' Hw'), <- (U1 j w' x Hj Hx), <- (E5 j x Hjl ltac:(exact Hx)).
    fold k. 
    assert (Ed : B - 8 * sp + 8 * Z.of_nat j = rs rsp - 8 * k + 8 * Z.of_nat j) by lia.
    rewrite Ed.
    assert (Hj8 : Z.of_nat j < k) by (unfold k; lia).
    rewrite (same_load hi (rsA rsp) m2 m3); [|exact Hs3|lia|lia].
    apply (same_load hi (rs1 rsp) m1 m2); [exact Hs2|lia|lia].
  - exists (MState (p3 + List.length (after_code (tag_result fi) odd (List.length us))) (rs4, m3, fl4)).
    split; [exact X1|]. exists rs4, m3, fl4. split; [|split; [|split; [|exact X3]]].
    + f_equal. rewrite K3, call_code_split. unfold p3, after_code.
      destruct (fi_external fi) eqn:He.
      * rewrite K1. len.
      * destruct K1 as [l ->]. assert (Et : tag_result fi = false) by (unfold tag_result; rewrite He; reflexivity).
        rewrite Et. cbn [tag_code]. len.
    + now rewrite Ev.
    + assert (0 <= saved_word cl) by (destruct cl; cbn; lia).
      assert (rsA rsp <= rs0 rsp) by lia.
      apply (same_trans hi (rs rsp) _ m m1); [lia|exact Hs1|].
      apply (same_trans hi (rs1 rsp) _ m1 m2); [lia|exact Hs2|].
      eapply same_weaken; [|exact Hs3]. lia.
Qed.

(** The arguments are in their registers when the call instruction is reached. *)
Lemma call_reaches N d slot T B us r h s c s' n rs m fl fi args cl :
  cl <> CSaved -> Args_ok N ->
  seq spill_registers (seq (gen_args slot fi 0 args) (finish_call fi cl)) s = Some (c, s') ->
  code_at P n c -> lits_ok s' -> safe_args 0 args = true -> List.length us = List.length (in_use_types s) ->
  INV slot T B (g_sp s) us r h rs m -> LOW d + 8 * (7 + pushes_args args) <= rs rsp ->
  ENDS (MState n (rs, m, fl)) (EVAL_ARGS N d r h args)
    (fun '(vs, h2) st' => List.length vs = List.length args /\
      exists p rsA mA flA spA, st' = MState p (rsA, mA, flA) /\ (n <= p < n + List.length c)%nat /\
        nth_error P p = Some (call_ins cl) /\ INV slot T B spA (conv fi args vs) r h2 rsA mA /\
        rsA rsp mod 16 = 0 /\ LOW d <= rsA rsp /\ SAME (rs rsp) m mA).
Proof.
  pose proof (Hlow d) as Hld. intros Hcl IHa Hg Hc Hlit Hsafe Hlen Hinv Hlow.
  apply seq_inv in Hg as (c1 & s1 & c2 & G1 & Hg & ->). apply seq_inv in Hg as (c3 & s3 & c4 & G3 & Hg & ->).
  apply spill_registers_inv in G1 as (-> & I1 & I2 & I3 & I4).
  pose proof (gen_args_eff slot args) as Ea.
  assert (Fa : Forall (fun e => forall ta s c s', gen_expr slot e ta s = Some (c, s') -> eff s s') args)
    by (apply Forall_forall; intros; eapply gen_expr_eff; eauto).
  specialize (Ea Fa _ _ _ _ _ G3) as (J1 & J2 & J3). clear Fa.
  apply finish_call_inv in Hg as (gc & K1 & K2 & K3 & K4 & K5 & K6).
  rewrite J2, I3 in K3, K4, K5. cbn [tl] in K3, K4, K5. fold (in_use_types s) in K3, K4.
  rewrite <- Hlen in *. set (k := Z.of_nat (List.length us)) in *.
  fold (saved_word cl) in K3, K4.
  apply code_at_app in Hc as [Hc1 Hc]. apply code_at_app in Hc as [Hc3 Hc].
  pose proof (pushes_args_nonneg args) as Hp.
  assert (Hp' : 0 <= pushes_args args) by (apply Hp; apply Forall_forall; intros; apply pushes_nonneg). clear Hp.
  pose proof (inv_word _ _ _ _ _ _ _ _ _ Hinv) as Hwd.
  pose proof Hst as [Hst1 Hst2]. pose proof Hroom as Hrm.
  pose proof Hinv as [V1 V2 V3 V4 V5 V6 V7 V8]. pose proof V1 as [B1 B2 [B3 B3'] B4 B5 B6].
  destruct (spill_run laddr (List.length us) 0 rs m fl ltac:(lia) Hwd ltac:(fold k; nia)) as (rs1 & m1 & E1 & E2 & E3 & E4 & E5).
  fold k in E2, E4.
  eapply ends_sx; [exact Hc1|exact E1|].
  assert (Hs1 : SAME (rs rsp) m m1). { intros x Hx. apply E4. lia. }
  assert (Hi1 : INV slot T B (g_sp s1) [] r h rs1 m1).
  { constructor; auto.
    - rewrite E3 by discriminate. exact V2.
    - lia.
    - lia.
    - nia.
    - apply (env_rel_same heap lo hi slot T B r m m1 (rs rsp)); [exact V1|lia|exact Hs1|exact V6].
    - intros x Hx. rewrite E4; [now apply V7|]. destruct (Hhp x Hx) as [_ Hr]. nia.
    - apply in_use_nil. }
  eapply ends_then.
  { eapply (IHa d slot T B []); [exact G3|exact Hc3| |exact Hsafe| |exact Hi1|rewrite E2; nia].
    - eapply lits_back; [|exact Hlit]. exact K6.
    - unfold in_use_types. rewrite I3. reflexivity. }
  intros [vs h2] st2 (Hn & rs2 & m2 & fl2 & -> & Hs2 & Hi2). cbn [app] in Hi2.
  pose proof (inv_rsp_eq _ _ _ _ _ _ _ _ _ _ _ _ _ _ Hi1 Hi2) as Hrsp2.
  rewrite K3, call_code_split in Hc. apply code_at_app in Hc as [Hb Hc]. apply code_at_cons in Hc as [Hcall Hc].
  set (sp := g_sp s3 - saved_word cl) in *.
  assert (Hsp : g_sp s1 = sp + saved_word cl) by (unfold sp; lia).
  rewrite Hsp in Hi2.
  assert (HT : T <= sp).
  { destruct cl; [| |now elim Hcl]; cbn [saved_word] in *; lia. }
  set (odd := negb (sp mod 2 =? 0)) in *.
  destruct (before_call fi cl odd slot T B sp (conv fi args vs) r h2 rs2 m2 fl2 Hi2 HT eq_refl) as (rsA & flA & A1 & A2 & A3 & A4).
  { assert (Hks : 0 <= saved_word cl /\ k <= 6) by (unfold k; destruct cl; cbn [saved_word]; lia). lia. }
  assert (AR : rsA rsp = B - 8 * (sp + odd_word odd)) by apply A2.
  assert (Ao : 0 <= odd_word odd <= 1) by (destruct odd; cbn; lia).
  assert (HlA : LOW d <= rsA rsp).
  { destruct cl; cbn [saved_word] in *; try nia. }
  eexists. split; [eapply sx_steps; [exact Hb|exact A1]|]. split; [exact Hn|].
  eexists _, rsA, m2, flA, _. split; [reflexivity|]. split; [rewrite K3, call_code_split, !app_length; cbn [List.length]; lia|].
  split; [exact Hcall|]. split; [exact A2|]. split; [exact A3|]. split; [exact HlA|].
  apply (same_trans hi (rs rsp) _ m m1); [lia|exact Hs1|]. eapply same_weaken; [|exact Hs2]. lia.
Qed.

Lemma E_call N t fi f args : Args_ok N -> Fun_ok (pred N) -> E_for (S N) (ECall t fi f args).
Proof.
  intros IHa IHf d slot T B us r h s c s' n rs m fl Hg Hc Hlit Hsafe Hlen Hinv Hlow.
  rewrite gen_expr_call in Hg.
  change (safe_args 0 args = true) in Hsafe. change (pushes (ECall t fi f args)) with (7 + pushes_args args) in Hlow.
  cbn [eval]. replace (g_sp s) with (g_sp s - saved_word (CName f)) by (cbn; lia).
  eapply call_ok with (rs := rs) (w := 0); [exact IHa|exact Hg|exact Hc|exact Hlit|exact Hsafe|exact Hlen|exact Hinv|discriminate|exact Hlow|cbn; lia|].
  intros vs h2 p rsA mA flA spA Hp He _ Hi Hal HlA _ Hn. cbn [call_ins] in Hp.
  pose proof (inv_bound _ _ _ _ _ _ _ _ _ Hi) as Hb. pose proof (inv_rbp_word _ _ _ _ _ _ _ _ _ Hi) as Hbp.
  destruct N as [|N]; [exact I|]. cbn [apply pred] in *. destruct (fi_external fi) eqn:Ex.
  - assert (Ec : conv fi args vs = (if fi_raw fi then raw_args args vs else vs)) by (unfold conv; now rewrite Ex).
    rewrite <- Ec. destruct (extern f (conv fi args vs) h2) as [[v h3]|] eqn:Ef; [|exact I].
    destruct Hi as [J1 J2 J3 J4 J5 J6 J7 J8]. destruct J8 as [U1 U2].
    pose proof Hroom as Hrm. assert (Hdf : 0 <= Z.of_nat d * F) by nia.
    destruct (lk_extern _ _ _ _ _ _ _ _ _ _ _ _ _ _ _ _ _ _ L f _ _ _ _ p Ef rsA mA flA Hp U1 J7 Hal ltac:(lia) Hbp)
      as (rs' & m' & fl' & R1 & R2 & R3 & R4 & R5 & R6).
    unfold tag_result. rewrite Ex. cbn [andb].
    destruct (fi_raw fi && kind_eqb (fi_ret fi) TInteger); exists (MState (S p) (rs', m', fl')); (split; [exact R1|]);
      exists v; (split; [reflexivity|]); exists rs', m', fl'; repeat (split; [solve [auto]|]); auto.
  - destruct (He eq_refl) as [l Hl].
    assert (Ec : conv fi args vs = vs) by (unfold conv; now rewrite Ex). rewrite Ec in *.
    unfold tag_result. rewrite Ex. cbn [andb].
    eapply ends_weaken.
    { eapply IHf; [exact Hp|exact Hl|apply Hi|exact Hbp|exact Hal|lia|apply Hi]. }
    intros [v h3] st Hq. exists v. split; [reflexivity|exact Hq].
Qed.

Lemma E_call_var N t fi x args : Args_ok N -> Ptr_ok N -> E_for (S N) (ECallVar t fi x args).
Proof.
  intros IHa IHf d slot T B us r h s c s' n rs m fl Hg Hc Hlit Hsafe Hlen Hinv Hlow.
  rewrite gen_expr_call_var in Hg.
  change (safe_args 0 args = true) in Hsafe. change (pushes (ECallVar t fi x args)) with (7 + pushes_args args) in Hlow.
  cbn [eval]. replace (g_sp s) with (g_sp s - saved_word (CSlot (slot x))) by (cbn; lia).
  eapply call_ok with (rs := rs) (w := 0) (K := fun vs h => match r x with None => Stuck | Some w => CALL_PTR N d fi w vs h end);
    [exact IHa|exact Hg|exact Hc|exact Hlit|exact Hsafe|exact Hlen|exact Hinv|discriminate|exact Hlow|cbn; lia|].
  intros vs h2 p rsA mA flA spA Hp He Hx Hi Hal HlA _ Hn. cbn [call_ins] in Hp.
  pose proof (inv_bound _ _ _ _ _ _ _ _ _ Hi) as Hb. pose proof (inv_rbp_word _ _ _ _ _ _ _ _ _ Hi) as Hbp.
  destruct (r x) as [w|] eqn:Er; [|exact I].
  destruct (fi_external fi) eqn:Ex.
  { destruct N as [|N]; [exact I|]. cbn [call_ptr]. destruct (fun_at w); [|exact I]. destruct (find_fun _ _); [|exact I].
    rewrite Ex. exact I. }
  destruct (He eq_refl) as [l Hl].
  assert (Ec : conv fi args vs = vs) by (unfold conv; now rewrite Ex). rewrite Ec in *.
  unfold tag_result. rewrite Ex. cbn [andb].
  eapply ends_weaken.
  { eapply IHf with (l := l); [exact Hp|reflexivity| |intros _; exact Hl|apply Hi|exact Hbp|exact Hal|lia|apply Hi].
    destruct Hi as [J1 J2 J3 J4 J5 J6 J7 J8]. destruct (J6 x w Er) as (W1 & W2 & W3). destruct J1 as [B1 B2 [B3 B3'] B4 B5 B6].
    destruct (B5 x W2) as [W4 W5]. pose proof Hst as [? ?].
    unfold target, ea. cbn [m_deref m_disp m_base m_idx]. rewrite J2, <- W3. f_equal.
    rewrite word_id; [lia|]. unfold is_word in *. lia. }
  intros [v h3] st Hq. exists v. split; [reflexivity|exact Hq].
Qed.

Lemma E_call_expr N t fi e1 args : E_ok N -> Args_ok N -> Ptr_ok N -> E_for (S N) (ECallExpr t fi e1 args).
Proof.
  intros IHe IHa IHf d slot T B us r h s c s' n rs m fl Hg Hc Hlit Hsafe Hlen Hinv Hlow.
  rewrite gen_expr_call_expr in Hg.
  apply seq_inv in Hg as (c1 & s1 & c2 & G1 & Hg & ->). apply seq_inv in Hg as (c3 & s3 & c4 & G3 & Hg & ->).
  apply save_inv in G3 as [-> ->]. geff G1.
  change (Nat.eqb (List.length us) 0 && safe (List.length us) e1 && safe_args 0 args = true) in Hsafe.
  apply andb_true_iff in Hsafe as [Hsafe Sa]. apply andb_true_iff in Hsafe as [Hk S1]. apply Nat.eqb_eq in Hk.
  destruct us; [|discriminate]. clear Hk.
  change (pushes (ECallExpr t fi e1 args)) with (Z.max (pushes e1) (8 + pushes_args args)) in Hlow.
  assert (Fa : Forall (fun e => forall ta s c s', gen_expr slot e ta s = Some (c, s') -> eff s s') args)
    by (apply Forall_forall; intros; eapply gen_expr_eff; eauto).
  pose proof (call_eff _ _ _ _ _ _ _ Fa Hg) as (D1 & D2 & D3). cbn [g_sp g_reg g_lits set_sp] in D1, D2, D3.
  pose proof (pushes_args_nonneg args) as Hp.
  assert (Hp' : 0 <= pushes_args args) by (apply Hp; apply Forall_forall; intros; apply pushes_nonneg). clear Hp.
  cbn [eval].
  eapply one_operand; [exact IHe|exact G1|exact Hc| |exact S1|exact Hlen|exact Hinv|lia|].
  { eapply lits_back; [|exact Hlit]. exact D3. }
  intros w h1 rs1 m1 fl1 Ww Hw Hs1 Hi1.
  apply code_at_app in Hc as [_ Hc]. apply code_at_cons in Hc as [Hpush Hc].
  pose proof (inv_rsp_eq _ _ _ _ _ _ _ _ _ _ _ _ _ _ Hinv Hi1) as Hrsp.
  assert (Hlo : lo <= rs1 rsp - 8). { pose proof Hroom. assert (0 <= Z.of_nat d * F) by nia. lia. }
  destruct (inv_push heap lo hi _ _ _ _ _ _ _ _ _ w Hst Hhp Hi1 Hlo) as (Hi3 & Hw3 & Hs3).
  eapply ends_steps.
  { apply steps_one. cbn [step]. rewrite Hpush. cbn [exec read push]. rewrite Hw3, Hw. reflexivity. }
  set (rs3 := rset rs1 rsp (rs1 rsp - 8)) in *. set (m3 := store m1 (rs1 rsp - 8) w) in *.
  assert (Hr3 : rs3 rsp = rs rsp - 8) by (unfold rs3; rewrite rset_same; lia).
  eapply ends_weaken.
  { eapply call_ok with (s := set_sp (fun x => x + 1) s1) (rs := rs3) (m := m3) (rs0 := rs1) (w := w) (us := []);
      [exact IHa|exact Hg|exact Hc|exact Hlit|exact Sa| | | | | |].
    - unfold in_use_types in *. cbn [g_reg set_sp]. rewrite B0. exact Hlen.
    - cbn [g_sp set_sp]. rewrite A. exact Hi3.
    - intros _. cbn [g_sp set_sp]. split; [reflexivity|]. split; [destruct Hi1; lia|].
      unfold m3. rewrite Hr3, <- Hrsp, load_store_same. now apply word_id.
    - rewrite Hr3. lia.
    - cbn [saved_word]. lia.
    - intros vs h2 p rsA mA flA spA Hp He Hx Hi Hal HlA Hax Hn. cbn [call_ins] in Hp. specialize (Hax eq_refl).
      pose proof (inv_bound _ _ _ _ _ _ _ _ _ Hi) as Hb. pose proof (inv_rbp_word _ _ _ _ _ _ _ _ _ Hi) as Hbp.
      destruct (fi_external fi) eqn:Ex.
      { destruct N as [|N]; [exact I|]. cbn [call_ptr]. destruct (fun_at w); [|exact I]. destruct (find_fun _ _); [|exact I].
        rewrite Ex. exact I. }
      destruct (He eq_refl) as [l Hl].
      assert (Ec : conv fi args vs = vs) by (unfold conv; now rewrite Ex). rewrite Ec in *.
      unfold tag_result. rewrite Ex. cbn [andb].
      eapply ends_weaken.
      { eapply IHf with (l := l); [exact Hp|reflexivity| |intros _; exact Hl|apply Hi|exact Hbp|exact Hal|lia|apply Hi].
        exact Hax. }
      intros [v h3] st Hq. exists v. split; [reflexivity|exact Hq]. }
  intros [v h3] st (rs4 & m4 & fl4 & -> & Hv & Hs4 & Hi4). exists rs4, m4, fl4.
  split; [f_equal; len|]. split; [exact Hv|]. cbn [g_sp set_sp saved_word] in Hi4.
  replace (g_sp s1 + 1 - 1) with (g_sp s) in Hi4 by lia. split; [|exact Hi4].
  rewrite Hrsp in Hs4, Hs3.
  apply (same_trans hi (rs rsp) _ m m1); [lia|exact Hs1|]. apply (same_trans hi (rs rsp) _ m1 m3); [lia|exact Hs3|exact Hs4].
Qed.

Lemma E_step N : E_ok N -> A_ok N -> Args_ok N -> Fun_ok (pred N) -> Ptr_ok N -> E_ok (S N).
Proof.
  intros He Ha Hs Hf Hp e. destruct e.
  - apply E_int. - apply E_bool. - apply E_str. - now apply E_logic. - now apply E_arith. - now apply E_not. - now apply E_bnot.
  - now apply E_neg. - now apply E_cmp. - now apply E_shift. - apply E_var. - apply E_fun. - apply E_off. - now apply E_cond.
  - now apply E_array_lit. - now apply E_call. - now apply E_call_var. - now apply E_call_expr. - now apply E_dot.
  - now apply E_index. - apply E_type.
Qed.

(* --------------------------------------------------------------- entering functions *)

Lemma gen_fn_start fd s c s' : gen_fn alloc fd s = Some (c, s') -> exists c', c = EFn (f_name fd) :: c'.
Proof.
  unfold gen_fn. destruct (fn_slots fd) as [t l]. intros H. apply seq_inv in H as (c1 & s1 & c2 & H1 & H & ->).
  apply modify_inv in H1 as [-> ->]. apply seq_inv in H as (c1 & s1 & c3 & H1 & H & ->). unfold gen_entry in H1. ginv1 H1.
  cbn [app]. eauto.
Qed.

Lemma frame_pos fd : 16 <= frame_bytes fd.
Proof.
  unfold frame_bytes. destruct (f_body fd) as [l|e|]; try lia.
  - pose proof (pushes_list_nonneg l). lia.
  - pose proof (pushes_nonneg e). lia.
Qed.

Lemma run_called N d fd vs h n o l rs m fl : Run_ok N -> In fd prog -> f_extret fd = false ->
  nth_error P n = Some (EIns call [o]) -> nth_error P (S n) = Some (EAddr l) ->
  in_use vs rs -> is_word (rs rbp) -> rs rsp mod 16 = 0 -> LOW d <= rs rsp <= hi -> agree heap m h ->
  exists n0, find_fn P (f_name fd) = Some n0 /\ place (fun_addr (f_name fd)) = Some n0 /\
    ENDS (MState n0 (push (rs, m, fl) (addr (S n)))) (RUN_FUN N d fd vs h) (call_post (S (S n)) rs m).
Proof.
  intros IH Hin Hx Hn Hl Hu Hbp Hal Hb Ha.
  destruct (lk_code _ _ _ _ _ _ _ _ _ _ _ _ _ _ _ _ _ _ L fd Hin) as (s & c & s' & n0 & Hg & Hc & Hlit).
  destruct (gen_fn_start _ _ _ _ Hg) as [c' Ec].
  assert (H0 : nth_error P n0 = Some (EFn (f_name fd))).
  { rewrite Ec in Hc. apply code_at_cons in Hc as [Hc _]. exact Hc. }
  destruct (lk_entry _ _ _ _ _ _ _ _ _ _ _ _ _ _ _ _ _ _ L _ _ H0) as [Hf Hpl].
  destruct (lk_return _ _ _ _ _ _ _ _ _ _ _ _ _ _ _ _ _ _ L _ _ Hn) as (R1 & R2 & R3).
  destruct (R3 _ Hl) as [R4 R5].
  exists n0. split; [exact Hf|]. split; [exact Hpl|].
  destruct N as [|N]; [exact I|]. destruct d as [|d]; [exact I|].
  pose proof (HF fd Hin) as [_ Hfr]. pose proof (frame_pos fd) as Hf16. pose proof Hroom as Hrm. pose proof Hst as [Hs1 Hs2].
  assert (Hdf : F <= Z.of_nat (S d) * F) by nia.
  assert (Hw : word (rs rsp - 8) = rs rsp - 8) by (apply word_id; unfold is_word; lia).
  cbn [push]. rewrite Hw.
  set (rs1 := rset rs rsp (rs rsp - 8)). set (m1 := store m (rs rsp - 8) (addr (S n))).
  assert (E1 : rs1 rsp = rs rsp - 8) by (unfold rs1; now rs_simp).
  assert (E2 : rs1 rbp = rs rbp) by (unfold rs1; now rs_simp).
  assert (E3 : load m1 (rs1 rsp) = addr (S n)).
  { unfold m1. rewrite E1, load_store_same. now apply word_id. }
  eapply ends_weaken.
  { eapply (IH (S d) fd vs h s c s' n0 (S (S n)) rs1 m1 fl Hin Hg Hc Hlit).
    - unfold rs1. apply in_use_set; auto. intros i Hr. apply arg_reg_not in Hr. tauto.
    - now rewrite E2.
    - rewrite E1. lia.
    - rewrite E1. lia.
    - unfold m1. eapply agree_store_stack; [exact Hhp|exact Ha| |]; lia.
    - rewrite Hx, E3. rewrite word_id by exact R4. exact R5. }
  intros [v h'] st' (rs' & m' & fl' & -> & V1 & V2 & V3 & V4 & V5).
  exists rs', m', fl'. split; [reflexivity|]. split; [exact V1|]. split; [lia|]. split; [congruence|]. split; [exact V4|].
  replace (rs1 rsp + 8) with (rs rsp) in V5 by lia.
  apply (same_trans hi (rs rsp) _ m m1); [lia| |exact V5]. unfold m1. apply same_store. lia.
Qed.

Lemma find_fun_in f fd : find_fun prog f = Some fd -> In fd prog /\ f_name fd = f.
Proof. unfold find_fun. intros H. apply find_some in H as [H1 H2]. apply String.eqb_eq in H2. auto. Qed.

Lemma aligned_true rs m fl : rs rsp mod 16 = 0 -> aligned (rs, m, fl) = true.
Proof. intros H. unfold aligned. now apply Z.eqb_eq. Qed.

Lemma Fun_step N : Run_ok N -> Fun_ok (S N).
Proof.
  intros IH d f vs h n l rs m fl Hn Hl Hu Hbp Hal Hb Ha. cbn [call_fun].
  destruct (find_fun prog f) as [fd|] eqn:Ef.
  - apply find_fun_in in Ef as [Hin <-]. destruct (f_extret fd) eqn:Ex; [exact I|].
    destruct (run_called N d fd vs h n _ l rs m fl IH Hin Ex Hn Hl Hu Hbp Hal Hb Ha) as (n0 & F1 & F2 & F3).
    eapply ends_steps; [|exact F3]. apply steps_one. cbn [step]. rewrite Hn.
    rewrite aligned_true by exact Hal. unfold call_named. rewrite F1. reflexivity.
  - destruct (abstract f vs h) as [[v h']|] eqn:Ea; [|exact I].
    pose proof Hroom as Hrm. assert (Hdf : 0 <= Z.of_nat d * F) by nia. destruct Hu as [U1 U2].
    destruct (lk_abstract _ _ _ _ _ _ _ _ _ _ _ _ _ _ _ _ _ _ L f _ _ _ _ n l Ea Hl rs m fl Hn U1 Ha Hal ltac:(lia) Hbp)
      as (rs' & m' & fl' & R1 & R2 & R3 & R4 & R5 & R6).
    exists (MState (S (S n)) (rs', m', fl')). split; [exact R1|].
    exists rs', m', fl'. repeat (split; [solve [auto]|]). exact R6.
Qed.

Lemma Ptr_step N : Run_ok (pred N) -> Ptr_ok (S N).
Proof.
  intros IH d fi w vs h n l rs m fl a Hn Hi Ht Hl Hu Hbp Hal Hb Ha. cbn [call_ptr].
  destruct (fun_at w) as [f|] eqn:Ew; [|exact I]. pose proof (lk_fun_at _ _ _ _ _ _ _ _ _ _ _ _ _ _ _ _ _ _ L _ _ Ew) as Hw.
  destruct (find_fun prog f) as [fd|] eqn:Ef; [|exact I].
  destruct (fi_external fi) eqn:Ex; [exact I|]. specialize (Hl eq_refl).
  destruct N as [|N]; [exact I|]. cbn [pred] in IH. cbn [call_fun]. rewrite Ef.
  apply find_fun_in in Ef as [Hin <-]. destruct (f_extret fd) eqn:Exr; [exact I|].
  destruct (run_called N d fd vs h n _ l rs m fl IH Hin Exr Hn Hl Hu Hbp Hal Hb Ha) as (n0 & F1 & F2 & F3).
  eapply ends_steps; [|exact F3]. apply steps_one. cbn [step]. rewrite Hn, Hi.
  rewrite aligned_true by exact Hal. cbn [andb]. rewrite Ht, Hw, F2. reflexivity.
Qed.

(* ------------------------------------------------------------------------- statements *)
Notation EXEC := (exec_stmt heap lit fun_addr fun_at extern abstract alloc prog).
Notation EXEC_LIST := (exec_list heap lit fun_addr fun_at extern abstract alloc prog).
Notation EXEC_IF := (exec_if heap lit fun_addr fun_at extern abstract alloc prog).

(** After the code of a statement: it falls through with the variables as they should
    be, or returns to place [q] with the caller's frame restored. *)
Definition stmt_post (slot : nat -> Z) (T B : Z) (n' q : nat) (m : memory) (a : outcome * env * memory) (st' : mstate) : Prop :=
  let '(o, r', h') := a in
  exists rs' m' fl',
  match o with
  | ONormal => st' = MState n' (rs', m', fl') /\ SAME B m m' /\ INV slot T B T [] r' h' rs' m'
  | OReturn v => st' = MState q (rs', m', fl') /\ result_in v rs' /\ rs' rsp = B + 16 /\ rs' rbp = load m B /\
      agree heap m' h' /\ SAME (B + 16) m m'
  end.
Definition ret_place (ext : bool) (m : memory) (B : Z) (q : nat) : Prop :=
  place (if ext then load m (B + 8) else word (load m (B + 8) + 8)) = Some q.
Definition vars_ok (slot : nat -> Z) (vars : list nat) : Prop := forall x, In x vars -> slot x <> 0.

Definition S_ok (N : nat) : Prop :=
  forall d slot ext T B r h s c s' n q rs m fl st,
  gen_stmt slot ext st s = Some (c, s') -> code_at P n c -> lits_ok s' -> safe_stmt st = true ->
  in_use_types s = [] -> g_sp s = T -> vars_ok slot (stmt_vars st) ->
  INV slot T B T [] r h rs m -> LOW d + 8 * pushes_stmt st <= rs rsp -> ret_place ext m B q ->
  ENDS (MState n (rs, m, fl)) (EXEC N d r h st) (stmt_post slot T B (n + List.length c) q m).
Definition L_ok (N : nat) : Prop :=
  forall d slot ext T B r h s c s' n q rs m fl l,
  gen_list slot ext l s = Some (c, s') -> code_at P n c -> lits_ok s' -> safe_list l = true ->
  in_use_types s = [] -> g_sp s = T -> vars_ok slot (list_vars l) ->
  INV slot T B T [] r h rs m -> LOW d + 8 * pushes_list l <= rs rsp -> ret_place ext m B q ->
  ENDS (MState n (rs, m, fl)) (EXEC_LIST N d r h l) (stmt_post slot T B (n + List.length c) q m).
Definition I_ok (N : nat) : Prop :=
  forall d slot ext T B r h s c s' n q rs m fl ex bs,
  gen_branches slot ext ex bs s = Some (c, s') -> code_at P n c -> nth_error P (n + List.length c) = Some (ELabel ex) ->
  lits_ok s' -> safe_branches bs = true ->
  in_use_types s = [] -> g_sp s = T -> vars_ok slot (stmt_vars (SIf bs)) ->
  INV slot T B T [] r h rs m -> LOW d + 8 * pushes_branches bs <= rs rsp -> ret_place ext m B q ->
  ENDS (MState n (rs, m, fl)) (EXEC_IF N d r h bs) (stmt_post slot T B (n + List.length c) q m).
(** A loop, from its start label. *)
Definition W_ok (N : nat) : Prop :=
  forall d slot ext T B r h s c s' n q rs m fl e b,
  gen_stmt slot ext (SWhile e b) s = Some (c, s') -> code_at P n c -> lits_ok s' -> safe_stmt (SWhile e b) = true ->
  in_use_types s = [] -> g_sp s = T -> vars_ok slot (stmt_vars (SWhile e b)) ->
  INV slot T B T [] r h rs m -> LOW d + 8 * pushes_stmt (SWhile e b) <= rs rsp -> ret_place ext m B q ->
  ENDS (MState (S (S n)) (rs, m, fl)) (EXEC N d r h (SWhile e b)) (stmt_post slot T B (n + List.length c) q m).

Lemma ret_place_same ext m m' B q slot T sp us r h rs : INV slot T B sp us r h rs m -> SAME B m m' -> ret_place ext m B q -> ret_place ext m' B q.
Proof.
  intros [[B1 B2 _ _ _ _] _ _ _ _ _ _ _] Hs. unfold ret_place. rewrite (same_load hi B m m' (B + 8)); [auto|exact Hs|lia|lia].
Qed.
Lemma stmt_post_same slot T B n' q m m1 a st : B + 16 <= hi -> SAME B m m1 -> stmt_post slot T B n' q m1 a st -> stmt_post slot T B n' q m a st.
Proof.
  intros HB Hs. destruct a as [[o r'] h']. intros (rs' & m' & fl' & H). exists rs', m', fl'. destruct o as [|v].
  - destruct H as (H1 & H2 & H3). split; [exact H1|]. split; [|exact H3]. eapply same_trans; [|exact Hs|exact H2]. lia.
  - destruct H as (H1 & H2 & H3 & H4 & H5 & H6). split; [exact H1|]. split; [exact H2|]. split; [exact H3|].
    split; [rewrite H4; apply (same_load hi B); [exact Hs|lia|lia]|]. split; [exact H5|].
    eapply same_trans; [|exact Hs|exact H6]. lia.
Qed.
(** What an expression leaves as it was. *)
Lemma same_frame slot T B sp us r h rs m m' : INV slot T B sp us r h rs m -> SAME (rs rsp) m m' -> SAME B m m'.
Proof. intros [[B1 B2 [B3 B3'] _ _ _] J2 J3 J4 J5 _ _ _] Hs. eapply same_weaken; [|exact Hs]. lia. Qed.

Definition exit_code (ext : bool) : list event :=
  [EIns leave []] ++ (if ext then [EIns ret []] else
    [EIns popq [OReg rbx]; EIns addq [OImm 8; OReg rbx]; EIns jmp [OMem (Mem rbx None 0 0 true false)]]) ++ [EFlush].
Lemma exit_run ext slot T B sp us r h rs m fl n q : code_at P n (exit_code ext) -> INV slot T B sp us r h rs m -> ret_place ext m B q ->
  exists rs' fl', STEPS (MState n (rs, m, fl)) (MState q (rs', m, fl')) /\ rs' rax = rs rax /\ rs' rsp = B + 16 /\ rs' rbp = load m B.
Proof.
  intros Hc Hi Hq. pose proof Hst as [Hs1 Hs2]. destruct Hi as [[B1 B2 [B3 B3'] B4 _ _] J2 J3 J4 J5 _ _ _].
  unfold ret_place in Hq.
  assert (W1 : word (B + 8) = B + 8) by (apply word_id; unfold is_word; lia).
  assert (W2 : word (B + 8 + 8) = B + 16) by (rewrite word_id; unfold is_word; lia).
  unfold exit_code in Hc. cbn [app] in Hc. apply code_at_cons in Hc as [Hlv Hc].
  destruct ext.
  - apply code_at_cons in Hc as [Hrt _].
    eexists _, _. split.
    { eapply steps_step; [cbn [step]; rewrite Hlv; cbn [exec]; reflexivity|].
      apply steps_one. cbn [step]. rewrite Hrt. rs_simp. rewrite J2, W1, Hq. cbn [goto]. reflexivity. }
    rs_simp. rewrite ?J2, ?W1, ?W2. auto.
  - apply code_at_cons in Hc as [H1 Hc]. apply code_at_cons in Hc as [H2 Hc]. apply code_at_cons in Hc as [H3 _].
    eexists _, _. split.
    { eapply steps_step; [cbn [step]; rewrite Hlv; cbn [exec]; reflexivity|].
      eapply steps_step; [cbn [step]; rewrite H1; cbn [exec]; reflexivity|].
      eapply steps_step; [cbn [step]; rewrite H2; sx_simp; reflexivity|].
      apply steps_one. cbn [step]. rewrite H3. cbn [m_indir target m_deref m_base]. rs_simp. rewrite J2, W1.
      change (word 8) with 8. rewrite Hq. reflexivity. }
    rs_simp. rewrite ?J2, ?W1, ?W2. auto.
Qed.

Lemma stmt_return ext slot T B sp us r0 r h rs m0 m fl n n' q v : code_at P n (exit_code ext) -> INV slot T B sp us r0 h rs m -> ret_place ext m B q ->
  result_in v rs -> SAME B m0 m -> ENDS (MState n (rs, m, fl)) (Val (OReturn v, r, h)) (stmt_post slot T B n' q m0).
Proof.
  intros Hc Hi Hq Hv Hs. destruct (exit_run _ _ _ _ _ _ _ _ _ _ fl _ _ Hc Hi Hq) as (rs' & fl' & S1 & R1 & R2 & R3).
  pose proof Hi as [[B1 B2 [B3 B3'] B4 _ _] J2 J3 J4 J5 _ J7 _].
  eapply ends_steps; [exact S1|]. apply ends_val. exists rs', m, fl'. split; [reflexivity|].
  split; [destruct v as [w|]; [cbn in *; now rewrite R1|exact I]|]. split; [exact R2|].
  split; [rewrite R3; apply (same_load hi B); [exact Hs|lia|lia]|]. split; [exact J7|]. eapply same_weaken; [|exact Hs]. lia.
Qed.

(** The value of an expression, in a statement. *)
Lemma stmt_value N d slot T B r h s n rs m fl e c1 s1 {A} (k : value * memory -> res A) Q :
  E_ok N -> gen_expr slot e false s = Some (c1, s1) -> code_at P n c1 -> lits_ok s1 ->
  safe 0 e = true -> in_use_types s = [] -> g_sp s = T ->
  INV slot T B T [] r h rs m -> LOW d + 8 * pushes e <= rs rsp ->
  (forall v h' rs' m' fl', result_in v rs' -> SAME (rs rsp) m m' -> INV slot T B T [] r h' rs' m' ->
     ENDS (MState (n + List.length c1) (rs', m', fl')) (k (v, h')) Q) ->
  ENDS (MState n (rs, m, fl)) (bind (EVAL N d r h e) k) Q.
Proof.
  intros IH Hg Hc Hlit Hsafe Hu Hsp Hi Hlow' Hk.
  eapply ends_bind.
  { eapply (IH e d slot T B []); [exact Hg|exact Hc|exact Hlit|exact Hsafe|now rewrite Hu| |exact Hlow']. rewrite Hsp. exact Hi. }
  intros [v h'] st' (rs' & m' & fl' & -> & Hv & Hs & Hi'). rewrite Hsp in Hi'. now apply Hk.
Qed.

Lemma env_set_rel slot T B r m x v : act_ok lo hi slot T B -> env_rel slot B r m -> slot x <> 0 -> is_word v ->
  env_rel slot B (env_set r x v) (store m (B - slot x) v).
Proof.
  intros [B1 B2 B3 B4 B5 B6] He Hx Hv y w Hy. unfold env_set in Hy. destruct (Nat.eqb x y) eqn:E.
  - injection Hy as <-. apply Nat.eqb_eq in E. subst y. split; [exact Hv|]. split; [exact Hx|]. rewrite load_store_same. now apply word_id.
  - destruct (He y w Hy) as (H1 & H2 & H3). split; [exact H1|]. split; [exact H2|]. rewrite load_store_other; [exact H3|].
    assert (slot x <> slot y). { intros Ee. apply B6 in Ee; [|exact Hx]. subst. rewrite Nat.eqb_refl in E. discriminate. }
    destruct (B5 x Hx), (B5 y H2). lia.
Qed.

(** The value on the stack goes to the address in rax. *)
Lemma store_end slot T B r h rs m fl n p w : code_at P n ([EIns popq [OReg rbx]] ++ [EIns movq [OReg rbx; mderef rax]]) ->
  INV slot T B (T + 1) [] r h rs m -> load m (rs rsp) = w -> rs rax = p -> is_word p ->
  exists rs', STEPS (MState n (rs, m, fl)) (MState (n + 2) (rs', store m p w, fl)) /\ INV slot T B T [] r h rs' m /\
    rs' rsp = rs rsp + 8.
Proof.
  intros Hc Hi Hl Hr Hp. pose proof (inv_pop heap lo hi slot T B T [] r h rs m rbx w Hst Hi ltac:(lia)) as HH.
  destruct HH as [H1 H2]; [free_tac|discriminate|discriminate|].
  exists (rset (rset rs rsp (rs rsp + 8)) rbx w). split; [|split; [exact H1|now rs_simp]].
  apply (sx_steps _ _ _ _ _ _ _ _ _ _ Hc). unfold mderef. sx_simp. rewrite H2, Hl. rs_simp.
  unfold ea. cbn [m_disp m_base m_idx]. rs_simp. rewrite Hr, Z.add_0_l, Z.add_0_r, word_id by exact Hp. reflexivity.
Qed.

Lemma S_assign_var N d slot T B r h s c s' n q rs m fl das t x e : E_ok N ->
  gen_assign slot das (EVar t x) e s = Some (c, s') -> code_at P n c -> lits_ok s' -> safe 0 e = true ->
  in_use_types s = [] -> g_sp s = T -> slot x <> 0 ->
  INV slot T B T [] r h rs m -> LOW d + 8 * Z.max (pushes e) 1 <= rs rsp ->
  ENDS (MState n (rs, m, fl)) (need (EVAL N d r h e) (fun v h => Val (ONormal, env_set r x v, h)))
    (stmt_post slot T B (n + List.length c) q m).
Proof.
  pose proof (Hlow d) as Hld.
  intros IH Hg Hc Hlit Hsafe Hu Hsp Hx Hi Hlow'. unfold gen_assign in Hg.
  apply seq_inv in Hg as (c1 & s1 & c2 & G1 & Hg & ->). geff G1.
  apply seq_inv in Hg as (c3 & s3 & c4 & G3 & Hg & ->). apply save_inv in G3 as [-> ->].
  apply seq_inv in Hg as (c5 & s5 & c6 & G5 & Hg & ->). cbn [gen_expr] in G5. ginv1 G5.
  apply seq_inv in Hg as (c7 & s7 & c8 & H7 & Hg & ->). apply restore_inv in H7 as [-> ->].
  apply seq_inv in Hg as (c9 & s9 & c10 & H9 & Hg & ->). apply ins_inv in H9 as [-> ->].
  assert (E : c10 = [] /\ extends (g_lits s1) (g_lits s')).
  { destruct das as [[y u]|]; [apply add_root_inv in Hg as [-> (_ & _ & E)]; split; [reflexivity|exact E]|ginv1 Hg].
    subst. split; [reflexivity|apply extends_refl]. }
  destruct E as [-> El].
  apply code_at_app in Hc as [Hc1 Hc].
  unfold need. eapply stmt_value; [exact IH|exact G1|exact Hc1|eapply lits_back; eauto|exact Hsafe|exact Hu|exact Hsp|exact Hi|lia|].
  intros [w|] h1 rs1 m1 fl1 Hv Hs1 Hi1; [|exact I]. destruct Hv as [Hv Hw].
  pose proof (inv_rsp_eq _ _ _ _ _ _ _ _ _ _ _ _ _ _ Hi Hi1) as Hrsp.
  pose proof (same_frame _ _ _ _ _ _ _ _ _ _ Hi Hs1) as HsB.
  apply code_at_cons in Hc as [Hpush Hc]. apply code_at_cons in Hc as [Hlea Hc]. rewrite app_nil_r in Hc.
  destruct (inv_push heap lo hi _ _ _ _ _ _ _ _ _ w Hst Hhp Hi1 ltac:(lia)) as (Hi3 & Hw3 & Hs3).
  one_step_push Hpush Hw3 Hv.
  set (rs3 := rset rs1 rsp (rs1 rsp - 8)) in *. set (m3 := store m1 (rs1 rsp - 8) w) in *.
  destruct (slot_ea _ _ _ _ _ _ _ _ _ x Hi3 Hx) as (L1 & L2 & L3).
  assert (Hr3 : rs3 rsp = rs1 rsp - 8) by (unfold rs3; now rs_simp).
  assert (Hl3 : load m3 (rs3 rsp) = w) by (unfold m3; rewrite Hr3, load_store_same; now apply word_id).
  clearbody rs3.
  eapply ends_steps; [apply steps_one; cbn [step]; rewrite Hlea; sx_simp; reflexivity|]. rewrite L1.
  destruct Hi as [J1 J2 J3 J4 J5 J6 J7 J8]. pose proof J1 as [B1 B2 [B3 B3'] B4 B5 B6]. pose proof Hst as [Hst1 Hst2].
  assert (Hi4 : INV slot T B (T + 1) [] r h1 (rset rs3 rax (B - slot x)) m3) by (inv_tac; exact Hi3).
  destruct (store_end slot T B r h1 _ m3 fl1 _ (B - slot x) w Hc Hi4) as (rs5 & S5 & I5 & R5).
  - rs_simp. exact Hl3.
  - now rs_simp.
  - unfold is_word. destruct (B5 x Hx). lia.
  - eapply ends_steps; [exact S5|]. apply ends_val. exists rs5, (store m3 (B - slot x) w), fl1.
    split; [f_equal; len|]. split.
    + apply (same_trans hi B _ m m1); [lia|exact HsB|]. apply (same_trans hi (rs1 rsp) _ m1 m3); [lia|exact Hs3|]. apply same_store. lia.
    + destruct I5 as [I1 I2 I3 I4 I6 I7 I8 I9]. constructor; auto.
      * apply (env_set_rel slot T); auto.
      * apply (agree_store_stack heap lo hi); [exact Hhp|exact I8|lia|lia].
Qed.

Lemma S_assign N d slot T B r h s c s' n q rs m fl lhs e : E_ok N -> A_ok N ->
  gen_assign slot None lhs e s = Some (c, s') -> code_at P n c -> lits_ok s' -> safe 0 e = true -> safe 0 lhs = true ->
  in_use_types s = [] -> g_sp s = T ->
  INV slot T B T [] r h rs m -> LOW d + 8 * Z.max (pushes e) (1 + pushes lhs) <= rs rsp ->
  ENDS (MState n (rs, m, fl)) (need (EVAL N d r h e) (fun v h => bind (EVAL_ADDR N d r h lhs) (fun '(a, h) =>
      if ok8 heap a then Val (ONormal, r, store h a v) else Stuck)))
    (stmt_post slot T B (n + List.length c) q m).
Proof.
  pose proof (Hlow d) as Hld. pose proof (pushes_nonneg lhs) as Hpl.
  intros IH IHa Hg Hc Hlit Hsafe Hsafel Hu Hsp Hi Hlow'. unfold gen_assign in Hg.
  apply seq_inv in Hg as (c1 & s1 & c2 & G1 & Hg & ->). geff G1.
  apply seq_inv in Hg as (c3 & s3 & c4 & G3 & Hg & ->). apply save_inv in G3 as [-> ->].
  apply seq_inv in Hg as (c5 & s5 & c6 & G5 & Hg & ->). geff G5.
  apply seq_inv in Hg as (c7 & s7 & c8 & H7 & Hg & ->). apply restore_inv in H7 as [-> ->].
  apply seq_inv in Hg as (c9 & s9 & c10 & H9 & Hg & ->). apply ins_inv in H9 as [-> ->]. ginv1 Hg.
  apply code_at_app in Hc as [Hc1 Hc].
  unfold need. eapply stmt_value; [exact IH|exact G1|exact Hc1|lits|exact Hsafe|exact Hu|exact Hsp|exact Hi|lia|].
  intros [w|] h1 rs1 m1 fl1 Hv Hs1 Hi1; [|exact I]. destruct Hv as [Hv Hw].
  pose proof (inv_rsp_eq _ _ _ _ _ _ _ _ _ _ _ _ _ _ Hi Hi1) as Hrsp.
  pose proof (same_frame _ _ _ _ _ _ _ _ _ _ Hi Hs1) as HsB.
  apply code_at_cons in Hc as [Hpush Hc]. apply code_at_app in Hc as [Hc5 Hc]. rewrite app_nil_r in Hc.
  destruct (inv_push heap lo hi _ _ _ _ _ _ _ _ _ w Hst Hhp Hi1 ltac:(lia)) as (Hi3 & Hw3 & Hs3).
  one_step_push Hpush Hw3 Hv.
  set (rs3 := rset rs1 rsp (rs1 rsp - 8)) in *. set (m3 := store m1 (rs1 rsp - 8) w) in *.
  assert (Hr3 : rs3 rsp = rs1 rsp - 8) by (unfold rs3; now rs_simp).
  assert (Hl3 : load m3 (rs3 rsp) = w) by (unfold m3; rewrite Hr3, load_store_same; now apply word_id).
  clearbody rs3. pose proof (inv_bound _ _ _ _ _ _ _ _ _ Hi) as Hbd.
  eapply ends_bind.
  { eapply (IHa d true slot T B [] r h1 (set_sp (fun x => x + 1) s1)); [exact G5|exact Hc5|exact Hlit|exact Hsafel| | |].
    - unfold in_use_types in *. cbn [g_reg set_sp]. rewrite B0, Hu. reflexivity.
    - cbn [g_sp set_sp]. rewrite A, Hsp. exact Hi3.
    - rewrite Hr3. lia. }
  intros [p h2] st2 (rs4 & m4 & fl4 & mo & -> & Hop & M1 & M2 & M3 & Hs4 & Hi4).
  cbn [g_sp set_sp] in Hi4. rewrite A, Hsp in Hi4.
  pose proof (inv_rsp_eq _ _ _ _ _ _ _ _ _ _ _ _ _ _ Hi3 Hi4) as Hrsp4.
  destruct (ok8 heap p) eqn:Ho; [|exact I].
  assert (Hc5l : (0 < List.length c5)%nat).
  { destruct c5; [|cbn; lia]. apply code_at_cons in Hc as [Hc _]. exfalso. cbn [List.length] in Hc, Hop.
    replace (S (n + List.length c1) + 0)%nat with (S (n + List.length c1) + (0 - 1))%nat in Hc by lia. congruence. }
  eapply ends_steps; [apply steps_one; cbn [step]; rewrite Hop; cbn [exec]; rewrite M1, M2; cbn [andb negb]; rewrite M3; reflexivity|].
  assert (Hi5 : INV slot T B (T + 1) [] r h2 (rset rs4 rax p) m4) by (inv_tac; exact Hi4).
  pose proof (ok8_word heap lo hi p Hhp Ho) as Hp8.
  match type of Hc with code_at _ ?x _ => match goal with |- ENDS (MState ?y _) _ _ => replace y with x by lia end end.
  destruct (store_end slot T B r h2 _ m4 fl4 _ p w Hc Hi5) as (rs5 & S5 & I5 & R5).
  - rs_simp. rewrite Hrsp4, (same_load hi (rs3 rsp) m3 m4); [exact Hl3|exact Hs4|lia|lia].
  - now rs_simp.
  - exact Hp8.
  - eapply ends_steps; [exact S5|]. apply ends_val. exists rs5, (store m4 p w), fl4.
    destruct Hi as [J1 J2 J3 J4 J5 J6 J7 J8]. pose proof J1 as [X1 X2 [X3 X3'] X4 X5 X6]. pose proof Hst as [Hst1 Hst2].
    assert (Hs5 : SAME B m4 (store m4 p w)) by (apply (same_store_heap heap lo hi); [exact Hhp|exact Ho|lia]).
    split; [f_equal; len|]. split.
    + apply (same_trans hi B _ m m1); [lia|exact HsB|]. apply (same_trans hi (rs1 rsp) _ m1 m3); [lia|exact Hs3|].
      apply (same_trans hi (rs3 rsp) _ m3 m4); [lia|exact Hs4|exact Hs5].
    + eapply inv_heap; [exact I5| |].
      * apply (same_store_heap heap lo hi); [exact Hhp|exact Ho|]. apply I5.
      * apply agree_store. apply I5.
Qed.

Lemma vars_app slot a b : vars_ok slot (a ++ b) -> vars_ok slot a /\ vars_ok slot b.
Proof. unfold vars_ok. intros H. split; intros x Hx; apply H; apply in_or_app; auto. Qed.

Lemma B_block slot ext l s c s' : gen_block slot ext l s = Some (c, s') ->
  exists s0 s1, gen_list slot ext l s0 = Some (c, s1) /\ in_use_types s0 = in_use_types s /\ g_sp s0 = g_sp s /\
    extends (g_lits s1) (g_lits s').
Proof.
  intros H. apply gen_block_inv in H as (s1 & H1 & (_ & _ & H2)). eexists _, s1. split; [exact H1|]. auto.
Qed.

Lemma L_block N d slot ext T B r h s c s' n q rs m fl l : L_ok N ->
  gen_block slot ext l s = Some (c, s') -> code_at P n c -> lits_ok s' -> safe_list l = true ->
  in_use_types s = [] -> g_sp s = T -> vars_ok slot (list_vars l) ->
  INV slot T B T [] r h rs m -> LOW d + 8 * pushes_list l <= rs rsp -> ret_place ext m B q ->
  ENDS (MState n (rs, m, fl)) (EXEC_LIST N d r h l) (stmt_post slot T B (n + List.length c) q m).
Proof.
  intros IH Hg Hc Hlit Hs Hu Hsp Hv Hi Hl Hq. apply B_block in Hg as (s0 & s1 & G & U & Sp & E).
  eapply IH; [exact G|exact Hc|eapply lits_back; eauto|exact Hs|congruence|congruence|exact Hv|exact Hi|exact Hl|exact Hq].
Qed.

(** A condition: falls through or jumps to [l]. *)
Lemma condition N d slot T B r h s c1 s1 n rs m fl e l p {A} (k : Z -> memory -> res A) (kt kf : memory -> res A) Q :
  E_ok N -> gen_expr slot e false s = Some (c1, s1) -> lits_ok s1 -> safe 0 e = true -> in_use_types s = [] -> g_sp s = T ->
  INV slot T B T [] r h rs m -> LOW d + 8 * pushes e <= rs rsp ->
  forall mid, (mid = [] \/ mid = [EFlush]) ->
  code_at P n (c1 ++ mid ++ [EIns cmpq [true_op; OReg rax]; EIns jne [OLab l]]) -> find_label P l = Some p ->
  (forall w h, k w h = match as_bool w with None => Stuck | Some true => kt h | Some false => kf h end) ->
  (forall h' rs' m' fl', SAME (rs rsp) m m' -> INV slot T B T [] r h' rs' m' ->
     ENDS (MState (n + List.length c1 + List.length mid + 2) (rs', m', fl')) (kt h') Q) ->
  (forall h' rs' m' fl', SAME (rs rsp) m m' -> INV slot T B T [] r h' rs' m' ->
     ENDS (MState p (rs', m', fl')) (kf h') Q) ->
  ENDS (MState n (rs, m, fl)) (need (EVAL N d r h e) k) Q.
Proof.
  intros IH Hg Hlit Hs Hu Hsp Hi Hl mid Hmid Hc Hp Hk Ht Hf.
  apply code_at_app in Hc as [Hc1 Hc]. apply code_at_app in Hc as [Hcm Hc].
  apply code_at_cons in Hc as [Hcmp Hc]. apply code_at_cons in Hc as [Hjne _].
  unfold need. eapply stmt_value; [exact IH|exact Hg|exact Hc1|exact Hlit|exact Hs|exact Hu|exact Hsp|exact Hi|exact Hl|].
  intros [w|] h1 rs1 m1 fl1 Hv Hs1 Hi1; [|exact I]. destruct Hv as [Hv Hw]. rewrite Hk.
  destruct (as_bool w) as [b|] eqn:Ew; [|exact I]. apply as_bool_cases in Ew.
  eapply (ends_steps _ (MState (n + List.length c1 + List.length mid) (rs1, m1, fl1))).
  { destruct Hmid as [->| ->]; cbn [List.length].
    - rewrite Nat.add_0_r. constructor.
    - apply code_at_cons in Hcm as [Hcm _]. apply steps_one. cbn [step]. rewrite Hcm. f_equal. f_equal. lia. }
  eapply ends_steps; [apply steps_one; cbn [step]; rewrite Hcmp; sx_simp; reflexivity|]. rewrite Hv, Ew. clear Ew Hv Hw.
  destruct b.
  - eapply ends_steps; [apply steps_one; cbn [step]; rewrite Hjne; change (wbool true =? word 1) with true; reflexivity|].
    replace (S (S (n + List.length c1 + List.length mid))) with (n + List.length c1 + List.length mid + 2)%nat by lia. now apply Ht.
  - eapply ends_steps; [apply steps_one; cbn [step]; rewrite Hjne; change (wbool false =? word 1) with false; cbn iota; rewrite Hp; reflexivity|].
    now apply Hf.
Qed.

Lemma L_step N : S_ok N -> L_ok N -> L_ok (S N).
Proof.
  intros IHs IHl d slot ext T B r h s c s' n q rs m fl l Hg Hc Hlit Hsafe Hu Hsp Hv Hi Hl Hq.
  destruct l as [|st l]; cbn [gen_list] in Hg; cbn [exec_list].
  - ginv1 Hg. apply ends_val. exists rs, m, fl. split; [f_equal; cbn; lia|]. split; [apply same_refl|exact Hi].
  - apply seq_inv in Hg as (c1 & s1 & c2 & G1 & Hg & ->).
    cbn [safe_list] in Hsafe. apply andb_true_iff in Hsafe as [Ss Sl]. cbn [list_vars] in Hv. apply vars_app in Hv as [Hv1 Hv2].
    cbn [pushes_list] in Hl. apply code_at_app in Hc as [Hc1 Hc].
    pose proof (gen_list_eff' _ _ _ _ _ _ Hg) as (_ & _ & E3). pose proof (gen_stmt_eff _ _ _ _ _ _ G1) as (D1 & D2 & _).
    eapply ends_bind.
    { eapply IHs; [exact G1|exact Hc1|eapply lits_back; eauto|exact Ss|exact Hu|exact Hsp|exact Hv1|exact Hi|lia|exact Hq]. }
    intros [[o r1] h1] st1 (rs1 & m1 & fl1 & Hp). destruct o as [|v].
    + destruct Hp as (-> & Hs1 & Hi1). pose proof (inv_rsp_eq _ _ _ _ _ _ _ _ _ _ _ _ _ _ Hi Hi1) as Hrsp.
      pose proof (inv_bound' _ _ _ _ _ _ _ _ _ Hi) as Hb.
      eapply ends_weaken.
      { eapply (IHl d slot ext T B); [exact Hg|exact Hc|exact Hlit|exact Sl| |congruence|exact Hv2|exact Hi1|rewrite Hrsp; lia|].
        - unfold in_use_types in *. now rewrite D2.
        - eapply ret_place_same; [exact Hi|exact Hs1|exact Hq]. }
      intros a st2 Hp. apply (stmt_post_same slot T B _ q m m1); [exact Hb|exact Hs1|].
      replace (n + List.length (c1 ++ c2))%nat with (n + List.length c1 + List.length c2)%nat by len. exact Hp.
    + destruct Hp as (-> & Hp). apply ends_val. exists rs1, m1, fl1. split; [reflexivity|exact Hp].
Qed.

Lemma I_step N : E_ok N -> L_ok N -> I_ok N -> I_ok (S N).
Proof.
  intros IHe IHl IHi d slot ext T B r h s c s' n q rs m fl ex bs Hg Hc Hex Hlit Hsafe Hu Hsp Hv Hi Hl Hq.
  pose proof (inv_bound' _ _ _ _ _ _ _ _ _ Hi) as Hb.
  destruct bs as [|[cnd b] bs]; cbn [gen_branches] in Hg; cbn [exec_if].
  - ginv1 Hg. apply ends_val. exists rs, m, fl. split; [f_equal; cbn; lia|]. split; [apply same_refl|exact Hi].
  - cbn [safe_branches] in Hsafe. apply andb_true_iff in Hsafe as [Hsafe Sr]. apply andb_true_iff in Hsafe as [Sc Sb].
    change (stmt_vars (SIf ((cnd, b) :: bs))) with ((match cnd with Some e => expr_vars e | None => [] end) ++ list_vars b ++ stmt_vars (SIf bs)) in Hv.
    apply vars_app in Hv as [_ Hv]. apply vars_app in Hv as [Hv1 Hv2].
    cbn [pushes_branches] in Hl. destruct cnd as [e|].
    + apply seq_inv in Hg as (c1 & s1 & c2 & G1 & Hg & ->). apply seq_inv in Hg as (c3 & s3 & c4 & G3 & Hg & ->). geff G1.
      apply new_label_inv in G3 as (c5 & -> & G3). set (next := LGen PElse (g_lab s1)) in *.
      apply seq_inv in G3 as (? & ? & c6 & Gx & G3 & ->). apply ins_inv in Gx as [-> ->].
      apply seq_inv in G3 as (? & ? & c7 & Gx & G3 & ->). apply ins_inv in Gx as [-> ->].
      apply seq_inv in G3 as (cb & sb & c8 & Gb & G3 & ->).
      apply seq_inv in G3 as (? & ? & c9 & Gx & G3 & ->). apply ins_inv in Gx as [-> ->]. apply emit_inv in G3 as [-> ->].
      pose proof (gen_branches_eff _ _ _ _ _ _ _ Hg) as (_ & _ & E3). pose proof (gen_block_eff' _ _ _ _ _ _ Gb) as (D1 & D2 & D3).
      cbn [g_sp g_reg g_lits set_lab] in D1, D2, D3.
      pose proof Hc as Hc0. cbn [app] in Hc. apply code_at_app in Hc as [Hc1 Hc]. apply code_at_cons in Hc as [_ Hc].
      apply code_at_cons in Hc as [_ Hc]. apply code_at_cons in Hc as [_ Hc]. rewrite <- app_assoc in Hc. apply code_at_app in Hc as [Hcb Hc].
      cbn [app] in Hc. apply code_at_cons in Hc as [Hjmp Hc]. apply code_at_cons in Hc as [Hnext Hc].
      eapply (condition N d slot T B r h s c1 s1 n rs m fl e next _ _ (fun h => EXEC_LIST N d r h b) (fun h => EXEC_IF N d r h bs));
        [exact IHe|exact G1| |exact Sc|exact Hu|exact Hsp|exact Hi|lia|right; reflexivity| |apply label_at; exact Hnext| | |].
      * eapply lits_back; [|exact Hlit]. eauto using extends_trans.
      * cbn [app] in Hc0. 
        match type of Hc0 with code_at _ _ (c1 ++ ?a :: ?b :: ?c :: ?r) => 
          change (a :: b :: c :: r) with (([a] ++ [b; c]) ++ r) in Hc0 end.
        rewrite app_assoc in Hc0. apply code_at_app in Hc0 as [Hc0 _]. exact Hc0.
      * intros w h0. destruct (as_bool w) as [[]|]; reflexivity.
      * intros h1 rs1 m1 fl1 Hs1 Hi1. pose proof (inv_rsp_eq _ _ _ _ _ _ _ _ _ _ _ _ _ _ Hi Hi1) as Hrsp.
        pose proof (same_frame _ _ _ _ _ _ _ _ _ _ Hi Hs1) as HsB.
        at_code Hcb. eapply ends_then.
        { eapply (L_block N d slot ext T B); [exact IHl|exact Gb|exact Hcb|eapply lits_back; eauto|exact Sb| |cbn; congruence|exact Hv1|exact Hi1|lia|].
          - unfold in_use_types in *. cbn [g_reg set_lab]. now rewrite B0.
          - eapply ret_place_same; [exact Hi|eassumption|exact Hq]. }
        intros [[o r2] h2] st2 Hp. destruct o as [|v].
        -- destruct Hp as (rs2 & m2 & fl2 & -> & Hs2 & Hi2).
           eexists. split.
           { apply steps_one. cbn [step]. rewrite Hjmp. rewrite (label_at _ _ Hex). cbn [goto]. reflexivity. }
           exists rs2, m2, fl2. split; [reflexivity|]. split; [|exact Hi2]. eapply same_trans; [|exact HsB|exact Hs2]. lia.
        -- exists st2. split; [constructor|]. apply (stmt_post_same slot T B _ q m m1); [exact Hb|exact HsB|]. exact Hp.
      * intros h1 rs1 m1 fl1 Hs1 Hi1. pose proof (inv_rsp_eq _ _ _ _ _ _ _ _ _ _ _ _ _ _ Hi Hi1) as Hrsp.
        pose proof (same_frame _ _ _ _ _ _ _ _ _ _ Hi Hs1) as HsB.
        one_step Hnext.
        eapply ends_weaken.
        { eapply (IHi d slot ext T B); [exact Hg|exact Hc| |exact Hlit|exact Sr| | |exact Hv2|exact Hi1|lia|].
          - match type of Hex with nth_error _ ?a = _ => match goal with |- nth_error _ ?b = _ => replace b with a by len end end. exact Hex.
          - unfold in_use_types in *. rewrite D2, B0. exact Hu.
          - congruence.
          - eapply ret_place_same; [exact Hi|eassumption|exact Hq]. }
        intros a st Hp. apply (stmt_post_same slot T B _ q m m1); [exact Hb|exact HsB|].
        match type of Hp with stmt_post _ _ _ ?a _ _ _ _ => match goal with |- stmt_post _ _ _ ?b _ _ _ _ => replace b with a by len end end. exact Hp.
    + apply seq_inv in Hg as (c1 & s1 & c2 & G1 & Hg & ->).
      destruct bs as [|b2 bs]; [|exact I]. cbn [gen_branches] in Hg. ginv1 Hg. rewrite app_nil_r in *.
      eapply (L_block N d slot ext T B); [exact IHl|exact G1|exact Hc|exact Hlit|exact Sb|exact Hu|exact Hsp|exact Hv1|exact Hi|lia|exact Hq].
Qed.

Lemma W_step N : E_ok N -> L_ok N -> W_ok N -> W_ok (S N).
Proof.
  intros IHe IHl IHw d slot ext T B r h s c s' n q rs m fl e b Hg Hc Hlit Hsafe Hu Hsp Hv Hi Hl Hq.
  pose proof Hg as Hg0. pose proof Hc as Hc0. pose proof (inv_bound' _ _ _ _ _ _ _ _ _ Hi) as Hb.
  rewrite gen_stmt_while in Hg. apply new_label_inv in Hg as (c1 & -> & Hg). apply new_label_inv in Hg as (c2 & -> & Hg).
  set (ex := LGen PWhileEnd (g_lab s)) in *. set (st := LGen PWhileStart (g_lab (set_lab S s))) in *.
  apply seq_inv in Hg as (? & ? & c3 & Gx & Hg & ->). apply emit_inv in Gx as [-> ->].
  apply seq_inv in Hg as (ce & s1 & c4 & G1 & Hg & ->). geff G1.
  apply seq_inv in Hg as (? & ? & c6 & Gx & Hg & ->). apply ins_inv in Gx as [-> ->].
  apply seq_inv in Hg as (? & ? & c7 & Gx & Hg & ->). apply ins_inv in Gx as [-> ->].
  apply seq_inv in Hg as (cb & sb & c8 & Gb & Hg & ->).
  apply seq_inv in Hg as (? & ? & c9 & Gx & Hg & ->). apply ins_inv in Gx as [-> ->]. apply emit_inv in Hg as [-> ->].
  pose proof (gen_block_eff' _ _ _ _ _ _ Gb) as (D1 & D2 & D3).
  apply code_at_cons in Hc as [_ Hc]. apply code_at_cons in Hc as [_ Hc]. cbn [app] in Hc. apply code_at_cons in Hc as [Hstart Hc].
  pose proof Hc as Hc1. apply code_at_app in Hc as [_ Hc]. apply code_at_cons in Hc as [_ Hc]. apply code_at_cons in Hc as [_ Hc].
  apply code_at_app in Hc as [Hcb Hc]. apply code_at_cons in Hc as [Hjmp Hc]. apply code_at_cons in Hc as [Hexit _].
  change (safe 0 e && safe_list b = true) in Hsafe. apply andb_true_iff in Hsafe as [Se Sb].
  change (stmt_vars (SWhile e b)) with (expr_vars e ++ list_vars b) in Hv. pose proof Hv as Hv0. apply vars_app in Hv as [_ Hvb].
  change (pushes_stmt (SWhile e b)) with (Z.max (pushes e) (pushes_list b)) in Hl.
  cbn [exec_stmt]. one_step Hstart.
  eapply (condition N d slot T B r h (set_lab S (set_lab S s)) ce s1 _ rs m fl e ex _ _
     (fun h => bind (EXEC_LIST N d r h b) (fun '(o, r, h) =>
              match o with ONormal => EXEC N d r h (SWhile e b) | OReturn v => Val (OReturn v, r, h) end))
     (fun h => Val (ONormal, r, h)));
    [exact IHe|exact G1|eapply lits_back; eauto|exact Se|exact Hu|exact Hsp|exact Hi|lia|left; reflexivity| |apply label_at; exact Hexit| | |].
  - cbn [app]. match type of Hc1 with code_at _ _ (ce ++ ?a :: ?b :: ?r) => change (a :: b :: r) with ([a; b] ++ r) in Hc1 end.
    rewrite app_assoc in Hc1. apply code_at_app in Hc1 as [Hc1 _]. exact Hc1.
  - intros w h0. destruct (as_bool w) as [[]|]; reflexivity.
  - intros h1 rs1 m1 fl1 Hs1 Hi1. pose proof (inv_rsp_eq _ _ _ _ _ _ _ _ _ _ _ _ _ _ Hi Hi1) as Hrsp.
    pose proof (same_frame _ _ _ _ _ _ _ _ _ _ Hi Hs1) as HsB.
    at_code Hcb. eapply ends_bind.
    { eapply (L_block N d slot ext T B); [exact IHl|exact Gb|exact Hcb|exact Hlit|exact Sb| |congruence|exact Hvb|exact Hi1|lia|].
      - unfold in_use_types in *. now rewrite B0.
      - eapply ret_place_same; [exact Hi|eassumption|exact Hq]. }
    intros [[o r2] h2] st2 Hp. destruct o as [|v].
    + destruct Hp as (rs2 & m2 & fl2 & -> & Hs2 & Hi2).
      pose proof (inv_rsp_eq _ _ _ _ _ _ _ _ _ _ _ _ _ _ Hi Hi2) as Hrsp2.
      assert (Hs02 : SAME B m m2) by (eapply same_trans; [|exact HsB|exact Hs2]; lia).
      eapply ends_steps.
      { apply steps_one. cbn [step]. rewrite Hjmp. rewrite (label_at _ _ Hstart). cbn [goto]. reflexivity. }
      eapply ends_weaken.
      { eapply (IHw d slot ext T B r2 h2 s _ _ n q rs2 m2 fl2 e b); [exact Hg0|exact Hc0|exact Hlit| |exact Hu|exact Hsp|exact Hv0|exact Hi2| |].
        - change (safe 0 e && safe_list b = true). now rewrite Se, Sb.
        - change (pushes_stmt (SWhile e b)) with (Z.max (pushes e) (pushes_list b)). rewrite Hrsp2. exact Hl.
        - eapply ret_place_same; [exact Hi|eassumption|exact Hq]. }
      intros a st' Hp. apply (stmt_post_same slot T B _ q m m2); [exact Hb|exact Hs02|exact Hp].
    + apply ends_val. apply (stmt_post_same slot T B _ q m m1); [exact Hb|exact HsB|]. destruct Hp as (rs2 & m2 & fl2 & Hp). exists rs2, m2, fl2. exact Hp.
  - intros h1 rs1 m1 fl1 Hs1 Hi1. pose proof (same_frame _ _ _ _ _ _ _ _ _ _ Hi Hs1) as HsB.
    one_step Hexit. apply ends_val. exists rs1, m1, fl1. split; [f_equal; len|]. split; [exact HsB|exact Hi1].
Qed.

Lemma S_step N : E_ok N -> A_ok N -> L_ok N -> I_ok N -> W_ok (S N) -> S_ok (S N).
Proof.
  intros IHe IHa IHl IHi IHw d slot ext T B r h s c s' n q rs m fl st Hg Hc Hlit Hsafe Hu Hsp Hv Hi Hl Hq.
  destruct st as [e|bs|x t e|lhs e|e b|b|e].
  - cbn [gen_stmt] in Hg. unfold gen_return in Hg. apply seq_inv in Hg as (c1 & s1 & c2 & G1 & Hg & ->).
    apply gen_exit_inv in Hg as [-> ->]. apply code_at_app in Hc as [Hc1 Hc]. cbn [exec_stmt]. destruct e as [e|].
    + cbn [safe_stmt pushes_stmt] in *.
      eapply stmt_value; [exact IHe|exact G1|exact Hc1|exact Hlit|exact Hsafe|exact Hu|exact Hsp|exact Hi|exact Hl|].
      intros v h1 rs1 m1 fl1 Hv1 Hs1 Hi1. pose proof (same_frame _ _ _ _ _ _ _ _ _ _ Hi Hs1) as HsB.
      eapply stmt_return; [exact Hc|exact Hi1|eapply ret_place_same; [exact Hi|eassumption|exact Hq]|exact Hv1|exact HsB].
    + ginv1 G1. cbn [List.length] in Hc. rewrite Nat.add_0_r in Hc.
      eapply stmt_return; [exact Hc|exact Hi|exact Hq|exact I|apply same_refl].
  - rewrite gen_stmt_if in Hg. apply new_label_inv in Hg as (c1 & -> & Hg). apply seq_inv in Hg as (c2 & s2 & c3 & G2 & Hg & ->).
    apply emit_inv in Hg as [-> ->]. apply code_at_cons in Hc as [Hfl Hc]. apply code_at_app in Hc as [Hc2 Hc].
    apply code_at_cons in Hc as [Hex _]. cbn [exec_stmt]. one_step Hfl.
    eapply ends_then.
    { eapply (IHi d slot ext T B); [exact G2|exact Hc2|exact Hex|exact Hlit|exact Hsafe|exact Hu|exact Hsp|exact Hv|exact Hi|exact Hl|exact Hq]. }
    intros [[o r2] h2] st2 Hp. destruct o as [|v].
    + destruct Hp as (rs2 & m2 & fl2 & -> & Hs2 & Hi2). eexists. split.
      { apply steps_one. cbn [step]. rewrite Hex. reflexivity. }
      exists rs2, m2, fl2. split; [f_equal; len|]. auto.
    + exists st2. split; [constructor|exact Hp].
  - cbn [gen_stmt exec_stmt safe_stmt pushes_stmt stmt_vars] in *.
    eapply S_assign_var; [exact IHe|exact Hg|exact Hc|exact Hlit|exact Hsafe|exact Hu|exact Hsp| |exact Hi|exact Hl].
    apply Hv. now left.
  - cbn [safe_stmt pushes_stmt stmt_vars] in *. apply andb_true_iff in Hsafe as [Sl Se]. change (gen_assign slot None lhs e s = Some (c, s')) in Hg.
    assert (Hdec : (exists t x, lhs = EVar t x) \/ ~ exists t x, lhs = EVar t x).
    { destruct lhs; try (right; intros (? & ? & ?); discriminate). left. eauto. }
    destruct Hdec as [(t & x & ->)|Hne].
    + cbn [exec_stmt]. pose proof (pushes_nonneg (EVar t x)).
      eapply S_assign_var; [exact IHe|exact Hg|exact Hc|exact Hlit|exact Se|exact Hu|exact Hsp| |exact Hi|lia].
      apply Hv. now left.
    + assert (E : EXEC (S N) d r h (SAs lhs e) = need (EVAL N d r h e) (fun v h => bind (EVAL_ADDR N d r h lhs) (fun '(a, h) =>
        if ok8 heap a then Val (ONormal, r, store h a v) else Stuck))).
      { destruct lhs; try reflexivity. elim Hne. eauto. }
      rewrite E. eapply S_assign; eauto.
  - cbn [gen_stmt] in Hg. pose proof Hg as Hg0. change (gen_stmt slot ext (SWhile e b) s = Some (c, s')) in Hg, Hg0.
    rewrite gen_stmt_while in Hg. apply new_label_inv in Hg as (c1 & -> & Hg). apply new_label_inv in Hg as (c2 & -> & Hg).
    pose proof Hc as Hc0. apply code_at_cons in Hc as [H1 Hc]. apply code_at_cons in Hc as [H2 Hc].
    one_step H1. one_step H2. eapply IHw; eauto.
  - rewrite gen_stmt_block in Hg. cbn [exec_stmt]. eapply (L_block N d slot ext T B); eauto.
  - cbn [gen_stmt exec_stmt safe_stmt pushes_stmt] in *.
    eapply stmt_value; [exact IHe|exact Hg|exact Hc|exact Hlit|exact Hsafe|exact Hu|exact Hsp|exact Hi|exact Hl|].
    intros v h1 rs1 m1 fl1 Hv1 Hs1 Hi1. pose proof (same_frame _ _ _ _ _ _ _ _ _ _ Hi Hs1) as HsB.
    apply ends_val. exists rs1, m1, fl1. auto.
Qed.

(* --------------------------------------------------------------------------- functions *)

Lemma params_run ps : forall i s c s' rs m fl B, gen_params i ps s = Some (c, s') -> rs rbp = B ->
  0 <= B - 8 * (Z.of_nat i + Z.of_nat (List.length ps)) -> B < W ->
  eff s s' /\ (ps = [] \/ (i + List.length ps <= 6)%nat) /\
  exists m', sx laddr c (rs, m, fl) = Some (rs, m', fl) /\
    (forall a, a < B - 8 * (Z.of_nat i + Z.of_nat (List.length ps)) \/ B - 8 * Z.of_nat i <= a -> m' a = m a) /\
    (forall j x, (j < List.length ps)%nat -> nth_error arg_regs (i + j) = Some x ->
       load m' (B - 8 * (Z.of_nat i + Z.of_nat j + 1)) = word (rs x)).
Proof.
  induction ps as [|[y t] ps IH]; intros i s c s' rs m fl B Hg HB H1 H2; cbn [gen_params] in Hg.
  - apply nop_inv in Hg as [-> ->]. split; [apply eff_refl|]. split; [now left|]. exists m. split; [reflexivity|].
    split; [auto|]. intros j x Hj. cbn in Hj. lia.
  - cbn [List.length] in H1. apply seq_inv in Hg as (c1 & s1 & c2 & G1 & Hg & ->).
    apply with_reg_inv in G1 as (x & Hx & G1). apply displace_inv in G1 as [_ G1]. apply ins_inv in G1 as [-> ->].
    apply seq_inv in Hg as (c3 & s3 & c4 & G3 & Hg & ->). apply add_root_inv in G3 as [-> E3].
    set (a0 := B - 8 * (Z.of_nat i + 1)). set (m1 := store m a0 (rs x)).
    assert (Ha0 : ea rs (Mem rbp None (- (8 * (Z.of_nat i + 1))) 0 false true) = a0).
    { unfold ea. cbn [m_disp m_base m_idx]. rewrite HB. rewrite word_id; [unfold a0; lia|]. unfold is_word. lia. }
    destruct (IH (S i) _ _ _ rs m1 fl B Hg HB ltac:(lia) H2) as (E4 & E5 & m' & Q1 & Q2 & Q3).
    assert (Hi : (i < 6)%nat). { change 6%nat with (List.length arg_regs). apply nth_error_Some. rewrite Hx. discriminate. }
    split; [eapply eff_trans; eauto|]. split.
    { right. cbn [List.length]. destruct E5 as [->|E5]; cbn; lia. }
    exists m'. split; [|split].
    + cbn [app sx exec read write m_deref m_indir andb negb]. rewrite Ha0. exact Q1.
    + intros a Ha. cbn [List.length] in Ha. rewrite Q2 by lia. apply store_other. unfold a0. lia.
    + intros j z Hj Hz. cbn [List.length] in Hj. destruct j as [|j].
      * rewrite Nat.add_0_r in Hz. replace z with x by congruence.
        replace (B - 8 * (Z.of_nat i + Z.of_nat 0 + 1)) with a0 by (unfold a0; lia).
        rewrite <- (load_store_same m a0 (rs x)). fold m1. apply load_ext. intros k Hk. apply Q2. unfold a0. lia.
      * replace (Z.of_nat i + Z.of_nat (S j) + 1) with (Z.of_nat (S i) + Z.of_nat j + 1) by lia.
        apply Q3; [lia|]. now replace (S i + j)%nat with (i + S j)%nat by lia.
Qed.

(** Parameters and their slots. *)
Lemma bind_params_slot ps x v : forall vs i, 0 <= i -> bind_params ps vs x = Some v ->
  exists j, nth_error vs j = Some (Some v) /\ (j < List.length ps)%nat /\
    get_slot (param_slots i ps) x = 8 * (i + Z.of_nat j + 1) /\ In x (map fst ps).
Proof.
  induction ps as [|[y t] ps IH]; intros vs i Hi H; [discriminate|]. cbn [bind_params] in H. cbn [param_slots get_slot map fst List.length].
  rewrite Nat.eqb_sym. destruct (Nat.eqb y x) eqn:E.
  - apply Nat.eqb_eq in E. exists 0%nat. destruct vs as [|w vs]; [discriminate|]. cbn in H. subst. split; [reflexivity|].
    split; [lia|]. split; [lia|now left].
  - apply (IH (tl vs) (i + 1)) in H as (j & H1 & H2 & H3 & H4); [|lia]. exists (S j). destruct vs as [|w vs]; [destruct j; discriminate|].
    split; [exact H1|]. split; [lia|]. split; [lia|now right].
Qed.

(** The state after entering a function. *)
Record entered (fd : fundef) (vs : list value) (slot : nat -> Z) (T : Z) (h : memory) (rs : regs) (m : memory) (rs1 : regs) (m1 : memory) : Prop := Entered {
  en_inv : INV slot T (rs rsp - 8) T [] (bind_params (f_params fd) vs) h rs1 m1;
  en_rbp : load m1 (rs rsp - 8) = rs rbp;
  en_ret : load m1 (rs rsp) = load m (rs rsp);
  en_same : SAME (rs rsp) m m1;
  en_size : T <= Z.of_nat (List.length (f_params fd)) + Z.of_nat (List.length (body_vars (f_body fd))) + 1;
  en_params : (List.length (f_params fd) <= 6)%nat;
  en_args : forall j v, nth_error vs j = Some (Some v) -> (j < List.length (f_params fd))%nat ->
    is_word v /\ load m1 (rs rsp - 8 - 8 * (Z.of_nat j + 1)) = v
}.

Lemma enter_run fd vs h s c1 s1 c2 s2 n rs m fl tt l : safe_fun fd = true -> fn_slots fd = (tt, l) ->
  gen_entry (f_name fd) tt s = Some (c1, s1) ->
  gen_params 0 (f_params fd) (set_sp (fun sp => sp + round_temps tt) s1) = Some (c2, s2) ->
  code_at P n (c1 ++ c2) -> in_use vs rs -> is_word (rs rbp) -> rs rsp mod 16 = 8 ->
  lo + frame_bytes fd <= rs rsp + 8 <= hi -> agree heap m h ->
  exists rs1 m1, STEPS (MState n (rs, m, fl)) (MState (n + List.length (c1 ++ c2)) (rs1, m1, fl)) /\
    entered fd vs (get_slot l) (round_temps tt) h rs m rs1 m1 /\ s1 = s /\
    eff (set_sp (fun sp => sp + round_temps tt) s) s2 /\ vars_ok (get_slot l) (body_vars (f_body fd)).
Proof.
  intros Hsf Hsl G1 G2 Hc Hu Hbp Hal Hb Ha. unfold gen_entry in G1. apply seq_inv in G1 as (? & ? & ? & Gx & G1 & ->).
  apply emit_inv in Gx as [-> ->]. apply ins_inv in G1 as [-> ->].
  pose proof (fn_slots_ok fd) as Hfs. rewrite Hsl in Hfs. destruct Hfs as (F1 & F2 & [F3 F3'] & F4 & F5).
  set (T := round_temps tt) in *.
  assert (HT : tt <= T <= tt + 1 /\ T mod 2 = 0).
  { unfold T, round_temps. destruct (tt mod 2 =? 0) eqn:E; lia. }
  unfold safe_fun in Hsf. apply andb_true_iff in Hsf as [Hsz _]. apply Z.ltb_lt in Hsz.
  assert (Hfb : 16 + 8 * T <= frame_bytes fd).
  { unfold frame_bytes. destruct (f_body fd) as [b|e|]; [pose proof (pushes_list_nonneg b)|pose proof (pushes_nonneg e)|]; lia. }
  pose proof Hst as [Hs1 Hs2]. set (B := rs rsp - 8).
  assert (HwB : word (rs rsp - 8) = B) by (apply word_id; unfold is_word; lia).
  assert (HwT : word (B - T * 8) = B - 8 * T) by (rewrite word_id; [lia|unfold is_word; lia]).
  set (rs1 := rset (rset (rset rs rsp B) rbp B) rsp (B - 8 * T)).
  set (m0 := store m B (rs rbp)).
  assert (R1 : rs1 rbp = B) by (unfold rs1; now rs_simp).
  destruct (params_run _ _ _ _ _ rs1 m0 fl B G2 R1 ltac:(lia) ltac:(lia)) as (E2 & E6 & m1 & Q1 & Q2 & Q3).
  assert (Hnp : (List.length (f_params fd) <= 6)%nat). { destruct E6 as [->|E6]; cbn; lia. }
  assert (X : sx laddr (([EFn (f_name fd)] ++ [EIns enter [OImm (T * 8); OImm 0]]) ++ c2) (rs, m, fl) = Some (rs1, m1, fl)).
  { cbn [app sx exec push]. rewrite HwB.
    assert (Hchk : (0 <=? T * 8) && (T * 8 <? 65536) = true) by (apply andb_true_iff; split; [apply Z.leb_le|apply Z.ltb_lt]; lia).
    rewrite Hchk. rs_simp. rewrite HwT. exact Q1. }
  assert (Ham : agree heap m1 h).
  { intros a Hh. rewrite Q2.
    - unfold m0. apply (agree_store_stack heap lo hi); [exact Hhp|exact Ha| | |exact Hh]; lia.
    - destruct (Hhp a Hh) as [_ Hr]. lia. }
  assert (Hargs : forall j v, nth_error vs j = Some (Some v) -> (j < List.length (f_params fd))%nat ->
    is_word v /\ load m1 (rs rsp - 8 - 8 * (Z.of_nat j + 1)) = v).
  { intros j v Hj Hjn. destruct Hu as [U1 U2]. pose proof (nth_error_In _ _ Hj) as Hin. apply U2 in Hin.
    split; [exact Hin|]. destruct (nth_error arg_regs j) as [x|] eqn:Ex.
    - pose proof (Q3 j x Hjn Ex) as Q. replace (Z.of_nat 0 + Z.of_nat j + 1) with (Z.of_nat j + 1) in Q by lia.
      fold B. rewrite Q. pose proof (U1 j v x Hj Ex) as Hr. apply arg_reg_not in Ex as (_ & _ & N3 & N4).
      unfold rs1. rewrite !rset_other by congruence. rewrite Hr. now apply word_id.
    - apply nth_error_None in Ex. cbn in Ex. lia. }
  exists rs1, m1. split; [eapply sx_steps; eauto|]. split; [|split; [reflexivity|split; [exact E2|]]].
  - constructor.
    + constructor.
      * constructor.
        -- fold B. unfold B. lia.
        -- lia.
        -- lia.
        -- lia.
        -- intros x Hx. apply get_slot_in in Hx. apply F3 in Hx. lia.
        -- intros x y Hx Hxy. apply (get_slot_inj l); auto.
      * exact R1.
      * unfold rs1. rs_simp. reflexivity.
      * lia.
      * unfold rs1. rs_simp. lia.
      * intros x v Hx. apply (bind_params_slot _ _ _ _ 0) in Hx as (j & X1 & X2 & X3 & X4); [|lia].
        destruct (Hargs j v X1 X2) as [Y1 Y2]. rewrite F5 by exact X4. rewrite X3. split; [exact Y1|]. split; [lia|].
        rewrite <- Y2. f_equal; lia.
      * exact Ham.
      * apply in_use_nil.
    + fold B. rewrite <- (word_id (rs rbp)) by exact Hbp. rewrite <- (load_store_same m B (rs rbp)). fold m0. apply load_ext.
      intros k Hk. apply Q2. lia.
    + apply load_ext. intros k Hk. rewrite Q2 by lia. unfold m0. apply store_other. lia.
    + intros a Hr. rewrite Q2 by lia. unfold m0. apply store_other. lia.
    + lia.
    + exact Hnp.
    + exact Hargs.
  - intros x Hx. apply F4. now right.
Qed.

(** A body that ends normally does not end with a return. *)
Lemma normal_no_return N : forall d r h l r' h' , EXEC_LIST N d r h l = Val (ONormal, r', h') -> return_last l = false.
Proof.
  assert (G : forall l N d r h r' h' l0 e, EXEC_LIST N d r h l = Val (ONormal, r', h') -> l <> l0 ++ [SReturn e]).
  { induction l as [|st l IH]; intros M d r h r' h' l0 e H E; [destruct l0; discriminate|].
    destruct M as [|M]; [discriminate|].
    change (bind (EXEC M d r h st) (fun '(o, r, h) => match o with ONormal => EXEC_LIST M d r h l | OReturn v => Val (OReturn v, r, h) end)
      = Val (ONormal, r', h')) in H.
    destruct (EXEC M d r h st) as [[[o r1] h1]| | | |] eqn:E1; try discriminate H. cbv beta iota delta [bind] in H. destruct o; [|discriminate H].
    destruct l0 as [|st0 l0]; cbn [app] in E; injection E as E2 E3.
    - subst. destruct M as [|M]; [discriminate|]. destruct e as [e|]; [|discriminate E1].
      change (bind (EVAL M d r h e) (fun '(v, h) => Val (OReturn v, r, h)) = Val (ONormal, r1, h1)) in E1.
      destruct (EVAL M d r h e) as [[v h2]| | | |]; discriminate E1.
    - eapply IH; eauto. }
  intros d r h l r' h' H. unfold return_last. destruct (rev l) as [|st t] eqn:E; [reflexivity|]. destruct st; try reflexivity.
  exfalso. eapply G; [exact H|]. rewrite <- (rev_involutive l), E. reflexivity.
Qed.

(** The fields of a new object. *)
Lemma fields_run k : forall ws i off s c s' rs m fl h h' p B, gen_fields i off k s = Some (c, s') ->
  List.length ws = k -> rs rax = p -> rs rbp = B -> is_word p -> 
  (forall j v, nth_error ws j = Some (Some v) -> is_word v /\ load m (B - 8 * (Z.of_nat i + Z.of_nat j + 1)) = v) ->
  lo <= B - 8 * (Z.of_nat i + Z.of_nat k) -> B <= hi ->
  agree heap m h -> set_fields heap ws (p + off) h = Val h' ->
  eff s s' /\ exists rs' m', sx laddr c (rs, m, fl) = Some (rs', m', fl) /\ (forall x, x <> rbx -> rs' x = rs x) /\
    agree heap m' h' /\ SAME lo m m'.
Proof.
  induction k as [|k IH]; intros ws i off s c s' rs m fl h h' p B Hg Hl Hp HB Hwp Hv Hlo Hhi Ha Hs; cbn [gen_fields] in Hg.
  - apply nop_inv in Hg as [-> ->]. split; [apply eff_refl|]. destruct ws; [|discriminate]. cbn in Hs. injection Hs as <-.
    exists rs, m. split; [reflexivity|]. split; [auto|]. split; [exact Ha|apply same_refl].
  - destruct ws as [|w ws]; [discriminate|]. injection Hl as Hl. cbn [set_fields] in Hs. destruct w as [w|]; [|discriminate].
    destruct (ok8 heap (word (p + off))) eqn:Ho; [|discriminate].
    apply seq_inv in Hg as (c1 & s1 & c2 & G1 & Hg & ->). apply displace_inv in G1 as [_ G1]. apply ins_inv in G1 as [-> ->].
    apply seq_inv in Hg as (c3 & s3 & c4 & G3 & Hg & ->). apply displace_inv in G3 as [_ G3]. apply ins_inv in G3 as [-> ->].
    destruct (Hv 0%nat w eq_refl) as [Hw Hw']. pose proof Hst as [Hs1 Hs2].
    assert (E1 : ea rs (Mem rbp None (- (8 * (Z.of_nat i + 1))) 0 false true) = B - 8 * (Z.of_nat i + Z.of_nat 0 + 1)).
    { unfold ea. cbn [m_disp m_base m_idx]. rewrite HB. rewrite word_id; [lia|]. unfold is_word. lia. }
    set (rs1 := rset rs rbx w).
    assert (E2 : ea rs1 (Mem rax None off 0 false true) = word (p + off)).
    { unfold ea. cbn [m_disp m_base m_idx]. unfold rs1. rs_simp. rewrite Hp. f_equal. lia. }
    assert (Hsm : SAME lo m (store m (word (p + off)) w)).
    { apply (same_store_heap heap lo hi); [exact Hhp|exact Ho|lia]. }
    destruct (IH ws (S i) (off + 8) _ _ _ rs1 (store m (word (p + off)) w) fl (store h (word (p + off)) w) h' p B Hg Hl) as (X1 & rs' & m' & X2 & X3 & X4 & X5).
    + unfold rs1. now rs_simp.
    + unfold rs1. now rs_simp.
    + exact Hwp.
    + intros j v Hj. destruct (Hv (S j) v Hj) as [Y1 Y2]. split; [exact Y1|]. rewrite <- Y2.
      replace (Z.of_nat (S i) + Z.of_nat j + 1) with (Z.of_nat i + Z.of_nat (S j) + 1) by lia.
      assert (j < k)%nat. { rewrite <- Hl. apply nth_error_Some. rewrite Hj. discriminate. }
      apply (same_load hi lo); [exact Hsm|lia|lia].
    + lia.
    + exact Hhi.
    + now apply agree_store.
    + now rewrite Z.add_assoc.
    + split; [exact X1|]. exists rs', m'. split; [|split; [|split]].
      * cbn [app sx exec read write m_deref m_indir andb negb]. rewrite E1, Hw', word_id by exact Hw. fold rs1. rewrite E2.
        replace (rs1 rbx) with w by (unfold rs1; now rs_simp). exact X2.
      * intros x Hx. rewrite X3 by exact Hx. unfold rs1. apply rset_other. congruence.
      * exact X4.
      * eapply same_trans; [|exact Hsm|exact X5]. lia.
Qed.
Lemma take_args_nth k : forall vs j v, nth_error (take_args k vs) j = Some (Some v) -> nth_error vs j = Some (Some v) /\ (j < k)%nat.
Proof.
  induction k as [|k IH]; intros vs j v H; cbn [take_args] in H; [destruct j; discriminate|].
  destruct j as [|j]; cbn in H.
  - destruct vs; [discriminate|]. cbn in H. split; [exact H|lia].
  - apply IH in H as [H1 H2]. destruct vs; [destruct j; discriminate|]. split; [exact H1|lia].
Qed.
Lemma take_args_len k : forall vs, List.length (take_args k vs) = k.
Proof. induction k; intros; cbn; auto. Qed.
Lemma set_fields_cases ws : forall p h, (exists h', set_fields heap ws p h = Val h') \/ set_fields heap ws p h = Stuck.
Proof. induction ws as [|[w|] ws IH]; intros p h; cbn; eauto. destruct (ok8 heap (word p)); eauto. Qed.

Lemma gen_maps_inv s c s' : gen_maps s = Some (c, s') -> s' = s.
Proof. intros H. now injection H as _ <-. Qed.

Lemma exit_eff ext s c s' : gen_exit ext s = Some (c, s') -> s' = s /\ c = exit_code ext.
Proof. intros H. apply gen_exit_inv in H as [-> ->]. split; reflexivity. Qed.

(** The constructor of an object. *)
Lemma cons_run N d fd vs h s c s' n q rs m rs1 m1 fl slot T tag id descr :
  Fun_ok N -> gen_constructor alloc (List.length (f_params fd)) tag id descr s = Some (c, s') -> code_at P n c -> lits_ok s' ->
  match tag with Some t => imm32 (2 * t + 1) | None => true end = true ->
  entered fd vs slot T h rs m rs1 m1 -> g_sp s = T -> LOW d <= rs1 rsp -> Z.of_nat (List.length (f_params fd)) <= T ->
  place (word (load m (rs rsp) + 8)) = Some q ->
  ENDS (MState n (rs1, m1, fl))
    (need (CALL_FUN N d alloc [Some (wint (object_size (List.length (f_params fd)) tag)); Some (lit descr); Some (wint id)] h)
       (fun p h => bind (set_fields heap (object_fields tag (take_args (List.length (f_params fd)) vs)) p h) (fun h => Val (Some p, h))))
    (fun '(v, h') st' => exists rs' m' fl', st' = MState q (rs', m', fl') /\ result_in v rs' /\
      rs' rsp = rs rsp + 8 /\ rs' rbp = rs rbp /\ agree heap m' h' /\ SAME (rs rsp + 8) m m').
Proof.
  intros IH Hg Hc Hlit Htag [Hi E1 E2 E3 E4 E5 E6] Hsp Hlow' HnT Hq. set (k := List.length (f_params fd)) in *.
  unfold gen_constructor in Hg.
  apply seq_inv in Hg as (? & ? & c1 & Gx & Hg & ->). apply ins_inv in Gx as [-> ->].
  apply seq_inv in Hg as (cl & sl & c2 & Gx & Hg & ->). apply string_lit_inv in Gx as (kl & cl' & s1 & -> & Gx & L1 & L2 & L3 & L4 & _).
  apply ins_inv in Gx as [-> ->].
  apply seq_inv in Hg as (? & ? & c3 & Gx & Hg & ->). apply ins_inv in Gx as [-> ->].
  apply seq_inv in Hg as (? & ? & c4 & Gx & Hg & ->). apply ins_inv in Gx as [-> ->].
  apply seq_inv in Hg as (cg & sg & c5 & Gx & Hg & ->). apply gc_map_inv in Gx as [[gl ->] (M1 & M2 & M3)].
  apply seq_inv in Hg as (cf & sf & c6 & Gf & Hg & ->). apply exit_eff in Hg as [-> ->].
  change (code_at P n ([EIns movq [tagged_op (object_size k tag); OReg rdi]; EFlush; EIns movabs [OAddr (LLit kl) 8; OReg rsi];
     EIns movabs [tagged_op id; OReg rdx]] ++ EIns call [OFn alloc] :: EAddr gl :: cf ++ exit_code false)) in Hc.
  apply code_at_app in Hc as [Hc1 Hc]. apply code_at_cons in Hc as [Hcall Hc]. apply code_at_cons in Hc as [Hgc Hc].
  apply code_at_app in Hc as [Hcf Hcx].
  assert (Hsf : eff sg sf).
  { clear - Gf. assert (G : forall k i off s c s', gen_fields i off k s = Some (c, s') -> eff s s').
    { intros k1. induction k1 as [|k1 IH]; intros i off s c s' H; cbn [gen_fields] in H; [apply nop_inv in H as [-> ->]; apply eff_refl|].
      apply seq_inv in H as (c1 & s1 & c2 & G1 & H & ->). apply displace_inv in G1 as [_ G1]. apply ins_inv in G1 as [-> ->].
      apply seq_inv in H as (c3 & s3 & c4 & G3 & H & ->). apply displace_inv in G3 as [_ G3]. apply ins_inv in G3 as [-> ->].
      eauto. }
    destruct tag as [t|]; [|eauto].
    apply seq_inv in Gf as (c1 & s1 & c2 & G1 & H & ->). apply displace_inv in G1 as [_ G1]. apply ins_inv in G1 as [-> ->]. eauto. }
  destruct Hsf as (_ & _ & Hsf).
  assert (Hll : nth_error lits kl = Some descr). { apply Hlit. eapply extends_nth; [|exact L1]. eauto using extends_trans. }
  destruct (lk_lit _ _ _ _ _ _ _ _ _ _ _ _ _ _ _ _ _ _ L _ _ Hll) as [K1 K2].
  assert (Himm : imm32 (2 * object_size k tag + 1) = true).
  { unfold imm32, object_size. apply andb_true_iff. split; apply Z.leb_le; destruct tag; lia. }
  set (rs2 := rset (rset (rset rs1 rdi (wint (object_size k tag))) rsi (lit descr)) rdx (wint id)).
  eapply ends_sx; [exact Hc1| |].
  { cbn [sx exec read write tagged_op]. rewrite Himm. cbn [write exec tagged_op]. rewrite word_word. rewrite K1, (word_id (lit descr)) by exact K2.
    fold (wint (object_size k tag)) (wint id) rs2. reflexivity. }
  cbn [List.length] in Hcall, Hgc |- *.
  assert (R1 : rs2 rsp = rs1 rsp) by (unfold rs2; now rs_simp). assert (R2 : rs2 rbp = rs1 rbp) by (unfold rs2; now rs_simp).
  pose proof Hi as [[B1 B2 [B3 B3'] B4 B5 B6] J2 J3 J4 J5 J6 J7 J8].
  assert (Hi2 : INV slot T (rs rsp - 8) T [] (bind_params (f_params fd) vs) h rs2 m1).
  { constructor; rewrite ?R1, ?R2; auto. constructor; auto. apply in_use_nil. }
  pose proof Hst as [Hs1 Hs2].
  unfold need. eapply ends_bind.
  { eapply (IH d alloc _ h _ gl rs2 m1 fl); [exact Hcall|exact Hgc| | | | |exact J7].
    - split.
      + intros i v x Hv Hx. apply arg_reg_cases in Hx.
        destruct Hx as [[-> ->]|[[-> ->]|[[-> ->]|[[-> _]|[[-> _]|[-> _]]]]]]; cbn in Hv; try discriminate; injection Hv as <-; unfold rs2; now rs_simp.
      + intros v [Hv|[Hv|[Hv|[]]]]; injection Hv as <-; [apply wint_range|exact K2|apply wint_range].
    - rewrite R2, J2. unfold is_word. lia.
    - rewrite R1, J3. lia.
    - rewrite R1. lia. }
  intros [v h1] st1 (rs3 & m3 & fl3 & -> & V1 & V2 & V3 & V4 & V5). destruct v as [p|]; [|exact I]. destruct V1 as [V1 V1w].
  set (ws := take_args k vs) in *.
  assert (Hws : List.length ws = k) by apply take_args_len.
  assert (HB3 : rs3 rbp = rs rsp - 8) by congruence.
  assert (Hargs : forall j v, nth_error ws j = Some (Some v) -> is_word v /\ load m3 (rs rsp - 8 - 8 * (Z.of_nat 0 + Z.of_nat j + 1)) = v).
  { intros j v Hj. unfold ws in Hj. apply take_args_nth in Hj as [Hj Hk]. destruct (E6 j v Hj Hk) as [Y1 Y2]. split; [exact Y1|].
    rewrite <- Y2. replace (Z.of_nat 0 + Z.of_nat j + 1) with (Z.of_nat j + 1) by lia.
    apply (same_load hi (rs2 rsp)); [exact V5|rewrite R1, J3; lia|lia]. }
  assert (Hexit : forall rs4 m4 h4, rs4 rax = p -> rs4 rsp = rs3 rsp -> rs4 rbp = rs3 rbp -> agree heap m4 h4 -> SAME lo m3 m4 ->
    ENDS (MState (S (S (n + 4)) + List.length cf) (rs4, m4, fl3)) (Val (Some p, h4))
      (fun '(v, h') st' => exists rs' m' fl', st' = MState q (rs', m', fl') /\ result_in v rs' /\
      rs' rsp = rs rsp + 8 /\ rs' rbp = rs rbp /\ agree heap m' h' /\ SAME (rs rsp + 8) m m')).
  { intros rs4 m4 h4 X1 X2 X3 X4 X5.
    assert (Hs14 : SAME (rs1 rsp) m1 m4).
    { apply (same_trans hi (rs1 rsp) _ m1 m3); [lia|rewrite <- R1; exact V5|]. eapply same_weaken; [|exact X5]. lia. }
    assert (Hi4 : INV slot T (rs rsp - 8) T [] (bind_params (f_params fd) vs) h4 rs4 m4).
    { eapply (inv_after heap lo hi); [exact Hi|exact Hs14|exact X4|congruence|congruence|apply in_use_nil]. }
    assert (Hq4 : ret_place false m4 (rs rsp - 8) q).
    { unfold ret_place. replace (rs rsp - 8 + 8) with (rs rsp) by lia.
      rewrite (same_load hi (rs1 rsp) m1 m4 (rs rsp) Hs14) by lia. rewrite E2. exact Hq. }
    destruct (exit_run _ _ _ _ _ _ _ _ _ _ fl3 _ _ Hcx Hi4 Hq4) as (rs5 & fl5 & S5 & U1 & U2 & U3).
    eapply ends_steps; [exact S5|]. apply ends_val. exists rs5, m4, fl5. split; [reflexivity|].
    split; [split; [congruence|exact V1w]|]. split; [lia|]. split.
    { rewrite U3. rewrite (same_load hi (rs1 rsp) m1 m4 _ Hs14) by lia. exact E1. }
    split; [exact X4|]. apply (same_trans hi (rs rsp) _ m m1); [lia|exact E3|]. eapply same_weaken; [|exact Hs14]. lia. }
  destruct (set_fields_cases (object_fields tag ws) p h1) as [[h2 Es]|Es]; rewrite Es; [|exact I]. cbn [bind].
  destruct tag as [t|]; cbn [object_fields] in Es.
  - apply seq_inv in Gf as (ct & st & c7 & Gt & Gf & ->). apply displace_inv in Gt as [_ Gt]. apply ins_inv in Gt as [-> ->].
    cbn [set_fields] in Es. destruct (ok8 heap (word p)) eqn:Ho; [|discriminate].
    set (m4 := store m3 (word p) (wint t)).
    assert (Hsm : SAME lo m3 m4). { apply (same_store_heap heap lo hi); [exact Hhp|exact Ho|lia]. }
    destruct (fields_run _ ws _ _ _ _ _ rs3 m4 fl3 (store h1 (word p) (wint t)) h2 p (rs rsp - 8) Gf Hws V1 HB3 V1w) as (_ & rs5 & m5 & X1 & X2 & X3 & X4).
    + intros j v Hj. destruct (Hargs j v Hj) as [Y1 Y2]. split; [exact Y1|]. rewrite <- Y2.
      assert (j < k)%nat. { rewrite <- Hws. apply nth_error_Some. rewrite Hj. discriminate. }
      apply (same_load hi lo); [exact Hsm|lia|lia].
    + lia.
    + lia.
    + now apply agree_store.
    + exact Es.
    + eapply ends_sx; [exact Hcf| |apply Hexit].
      * cbn [app sx exec read write tagged_op]. rewrite Htag. cbn [write m_deref m_indir andb negb].
        assert (Hea : ea rs3 (Mem rax None 0 0 false true) = word p).
        { unfold ea. cbn [m_disp m_base m_idx]. rewrite V1. f_equal. lia. }
        rewrite Hea. fold (wint t). fold m4. exact X1.
      * rewrite X2 by discriminate. exact V1.
      * now rewrite X2 by discriminate.
      * now rewrite X2 by discriminate.
      * exact X3.
      * eapply same_trans; [|exact Hsm|exact X4]. lia.
  - destruct (fields_run _ ws _ _ _ _ _ rs3 m3 fl3 h1 h2 p (rs rsp - 8) Gf Hws V1 HB3 V1w Hargs) as (_ & rs5 & m5 & X1 & X2 & X3 & X4).
    + lia.
    + lia.
    + exact V4.
    + now rewrite Z.add_0_r.
    + eapply ends_sx; [exact Hcf|exact X1|apply Hexit].
      * rewrite X2 by discriminate. exact V1.
      * now rewrite X2 by discriminate.
      * now rewrite X2 by discriminate.
      * exact X3.
      * exact X4.
Qed.

Lemma run_unfold N d fd vs h : RUN_FUN (S N) (S d) fd vs h =
  match f_body fd with
  | BExpr e => EVAL N d (bind_params (f_params fd) vs) h e
  | BBlock b =>
      bind (EXEC_LIST N d (bind_params (f_params fd) vs) h b) (fun '(o, _, h) =>
        match o with
        | OReturn v => Val (v, h)
        | ONormal => if kind_eqb (f_ret fd) TNothing then Val (None, h) else Stuck
        end)
  | BCons tag id descr =>
      need (CALL_FUN N d alloc [Some (wint (object_size (List.length (f_params fd)) tag)); Some (lit descr); Some (wint id)] h)
        (fun p h => bind (set_fields heap (object_fields tag (take_args (List.length (f_params fd)) vs)) p h) (fun h =>
          Val (Some p, h)))
  end.
Proof. reflexivity. Qed.

Lemma Run_step N : E_ok N -> L_ok N -> Fun_ok N -> Run_ok (S N).
Proof.
  intros IHe IHl IHf d fd vs h s c s' n q rs m fl Hin Hg Hc Hlit Hu Hbp Hal Hb Ha Hq.
  destruct (HF fd Hin) as [Hsafe Hfr]. destruct d as [|d]; [exact I|]. rewrite run_unfold.
  unfold gen_fn in Hg. destruct (fn_slots fd) as [tt l] eqn:Hsl.
  apply seq_inv in Hg as (? & ? & c0 & Gx & Hg & ->). apply modify_inv in Gx as [-> ->].
  apply seq_inv in Hg as (c1 & s1 & c2 & G1 & Hg & ->).
  apply seq_inv in Hg as (? & ? & c3 & Gx & Hg & ->). apply modify_inv in Gx as [-> ->].
  apply seq_inv in Hg as (c4 & s4 & c5 & G4 & Hg & ->).
  apply seq_inv in Hg as (c6 & s6 & c7 & G6 & Hg & ->). apply gen_maps_inv in Hg as ->.
  cbn [app] in Hc. rewrite app_assoc in Hc. apply code_at_app in Hc as [Hc1 Hc]. apply code_at_app in Hc as [Hc6 _].
  pose proof Hroom as Hrm. assert (Hdf : Z.of_nat (S d) * F = Z.of_nat d * F + F) by lia.
  assert (Hdf0 : 0 <= Z.of_nat d * F) by nia.
  destruct (enter_run fd vs h _ _ _ _ _ n rs m fl tt l Hsafe Hsl G1 G4 Hc1 Hu Hbp Hal ltac:(lia) Ha)
    as (rs1 & m1 & S1 & En & -> & (D1 & D2 & D3) & Hv).
  eapply ends_steps; [exact S1|].
  pose proof En as [Hi E1 E2 E3 E4 E5 E6]. set (T := round_temps tt) in *.
  assert (HspT : g_sp s4 = T) by (rewrite D1; cbn; lia).
  assert (Hin4 : in_use_types s4 = []). { unfold in_use_types. rewrite D2. reflexivity. }
  pose proof Hi as [[B1 B2 [B3 B3'] B4 B5 B6] J2 J3 J4 J5 J6 J7 J8].
  assert (Hqm : forall ext, ext = f_extret fd -> ret_place ext m1 (rs rsp - 8) q).
  { intros ext ->. unfold ret_place. replace (rs rsp - 8 + 8) with (rs rsp) by lia. rewrite E2. exact Hq. }
  unfold safe_fun in Hsafe. apply andb_true_iff in Hsafe as [_ Hsafe]. unfold frame_bytes in Hfr.
  set (Q := fun '(v, h') st' => exists rs' m' fl', st' = MState q (rs', m', fl') /\ result_in v rs' /\
      rs' rsp = rs rsp + 8 /\ rs' rbp = rs rbp /\ agree heap m' h' /\ SAME (rs rsp + 8) m m').
  assert (Hret : forall v r2 h2 st, stmt_post (get_slot l) T (rs rsp - 8) (n + 0) q m1 (OReturn v, r2, h2) st -> Q (v, h2) st).
  { intros v r2 h2 st (rs2 & m2 & fl2 & -> & X1 & X2 & X3 & X4 & X5). exists rs2, m2, fl2. split; [reflexivity|].
    split; [exact X1|]. split; [lia|]. split; [congruence|]. split; [exact X4|].
    apply (same_trans hi (rs rsp) _ m m1); [lia|exact E3|]. replace (rs rsp - 8 + 16) with (rs rsp + 8) in X5 by lia. exact X5. }
  destruct (f_body fd) as [b|e|tag id descr] eqn:Eb.
  - apply seq_inv in G6 as (cb & sb & cx & Gb & Gx & ->). apply code_at_app in Hc6 as [Hcb Hcx].
    assert (Hsb : extends (g_lits sb) (g_lits s6)).
    { destruct (kind_eqb (f_ret fd) TNothing && negb (return_last b)); [apply exit_eff in Gx as [-> _]|apply nop_inv in Gx as [_ ->]]; apply extends_refl. }
    pose proof (L_block N d (get_slot l) (f_extret fd) T (rs rsp - 8) _ h s4 cb sb _ q rs1 m1 fl b IHl Gb Hcb (lits_back _ _ Hsb Hlit) Hsafe Hin4 HspT Hv Hi
      ltac:(lia) (Hqm _ eq_refl)) as HL.
    destruct (EXEC_LIST N d (bind_params (f_params fd) vs) h b) as [[[o r2] h2]| | | |] eqn:Ee; try exact HL.
    cbn [bind]. destruct HL as (st2 & S2 & Hp). eapply ends_steps; [exact S2|]. destruct o as [|v].
    + destruct (kind_eqb (f_ret fd) TNothing) eqn:Ek; [|exact I]. rewrite (normal_no_return _ _ _ _ _ _ _ Ee) in Gx. cbn [andb negb] in Gx.
      apply exit_eff in Gx as [-> ->]. destruct Hp as (rs2 & m2 & fl2 & -> & X1 & X2).
      pose proof (ret_place_same _ _ _ _ _ _ _ _ _ _ _ _ Hi X1 (Hqm _ eq_refl)) as Hq2.
      destruct (exit_run _ _ _ _ _ _ _ _ _ _ fl2 _ _ Hcx X2 Hq2) as (rs3 & fl3 & S3 & U1 & U2 & U3).
      eapply ends_steps; [exact S3|]. apply ends_val. apply (Hret None r2 h2). exists rs3, m2, fl3.
      split; [reflexivity|]. split; [exact I|]. split; [exact U2|]. split.
      { rewrite U3. apply (same_load hi (rs rsp - 8)); [exact X1|lia|lia]. }
      split; [apply X2|]. eapply same_weaken; [|exact X1]. lia.
    + apply ends_val. apply (Hret v r2 h2). exact Hp.
  - unfold gen_return in G6. apply seq_inv in G6 as (ce & se & cx & Ge & Gx & ->). apply code_at_app in Hc6 as [Hce Hcx].
    apply exit_eff in Gx as [-> ->].
    pose proof (stmt_value N d (get_slot l) T (rs rsp - 8) _ h s4 _ rs1 m1 fl e ce se
       (fun '(v, h) => Val (OReturn v, bind_params (f_params fd) vs, h)) (stmt_post (get_slot l) T (rs rsp - 8) (n + 0) q m1)
       IHe Ge Hce Hlit Hsafe Hin4 HspT Hi ltac:(lia)) as HV.
    assert (HV2 : ENDS (MState (n + List.length (c1 ++ c4)) (rs1, m1, fl)) (bind (EVAL N d (bind_params (f_params fd) vs) h e)
      (fun '(v, h) => Val (OReturn v, bind_params (f_params fd) vs, h))) (stmt_post (get_slot l) T (rs rsp - 8) (n + 0) q m1)).
    { apply HV. intros v h1 rs2 m2 fl2 V1 V2 V3. pose proof (same_frame _ _ _ _ _ _ _ _ _ _ Hi V2) as HsB.
      eapply stmt_return; [exact Hcx|exact V3|eapply ret_place_same; [exact Hi|exact HsB|apply Hqm; reflexivity]|exact V1|exact HsB]. }
    destruct (EVAL N d (bind_params (f_params fd) vs) h e) as [[v h2]| | | |]; try exact HV2.
    destruct HV2 as (st2 & S2 & Hp). exists st2. split; [exact S2|]. eapply Hret. exact Hp.
  - apply andb_true_iff in Hsafe as [Hx Htag]. apply negb_true_iff in Hx. rewrite Hx in Hq.
    eapply cons_run; [exact IHf|exact G6|exact Hc6|exact Hlit|exact Htag|exact En|exact HspT| | |exact Hq].
    + lia.
    + pose proof (fn_slots_ok fd) as Hfs. rewrite Hsl in Hfs. destruct Hfs as (_ & F2 & _). unfold T, round_temps.
      destruct (tt mod 2 =? 0); lia.
Qed.

(* ------------------------------------------------------------------- everything together *)

Record all_ok (N : nat) : Prop := AllOk {
  al_e : E_ok N; al_a : A_ok N; al_args : Args_ok N; al_fun : Fun_ok N; al_ptr : Ptr_ok N; al_run : Run_ok N;
  al_s : S_ok N; al_l : L_ok N; al_i : I_ok N; al_w : W_ok N
}.
Lemma all_0 : all_ok 0.
Proof. constructor; repeat intro; exact I. Qed.
Lemma all_steps N : all_ok N /\ all_ok (pred N).
Proof.
  induction N as [|N [IH IH']]; [split; apply all_0|]. split; [|exact IH]. destruct IH as [I1 I2 I3 I4 I5 I6 I7 I8 I9 I10].
  constructor.
  - apply E_step; auto. apply IH'.
  - now apply A_step.
  - now apply Args_step.
  - now apply Fun_step.
  - apply Ptr_step. apply IH'.
  - now apply Run_step.
  - apply S_step; auto. now apply W_step.
  - now apply L_step.
  - now apply I_step.
  - now apply W_step.
Qed.
Lemma all N : all_ok N.
Proof. apply all_steps. Qed.
End Correct.
