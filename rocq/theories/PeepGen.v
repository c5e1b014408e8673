(** Generated code passes the check of [PeepFlow]. *)
From Coq Require Import ZArith List Bool String Lia.
From Verif Require Import X86 GenModel GenProgram GenStatic GenSlots GenLabels PeepModel PeepSpec PeepCalls PeepExec PeepProofs PeepFlow.
Import ListNotations.
Open Scope nat_scope.
Open Scope list_scope.

(* ------------------------------------------------------------- straight-line code *)

Definition mem (r : reg) (l : list reg) : bool := existsb (reg_eqb r) l.
Lemma mem_in r l : mem r l = true <-> In r l.
Proof. apply mem_reg_in. Qed.
(** A register that the optimiser may leave unset when it meets the instruction. *)
Definition may_drop (i : inst) (ops : list operand) : list reg :=
  match i, ops with movq, [OReg q; _] | pushq, [OReg q] => [q] | _, _ => [] end.
Definition all_regs : list reg := [rax; rbx; rcx; rdx; rsi; rdi; rbp; rsp; r8; r9].
Definition plain_ins (i : inst) : bool := match i with call | jmp | ret | jne | jae => false | _ => true end.
(** The registers known to be right after an instruction. *)
Definition clean_after (pre : list reg) (i : inst) (ops : list operand) : list reg :=
  filter (fun r => negb (mem r (may_drop i ops)) && negb (settled (fun q => negb (mem q pre)) i ops r)) all_regs.
Definition ins_ok (pre : list reg) (i : inst) (ops : list operand) : bool :=
  forallb (fun r => mem r pre) (needs i ops) && forallb (fun q => negb (mem q (other_uses i ops))) (may_drop i ops).
Fixpoint runs (pre : list reg) (c : list event) : option (list reg) :=
  match c with
  | [] => Some pre
  | EIns i ops :: t => if plain_ins i && ins_ok pre i ops then runs (clean_after pre i ops) t else None
  | (EFlush | EAddr _) :: t => runs pre t
  | _ => None
  end.
Definition okc (pre : list reg) (c : list event) (post : list reg) : bool :=
  match runs pre c with Some q => forallb (fun r => mem r q) post | None => false end.
Notation R k X := (X ++ firstn k arg_regs).

Lemma merged_drop h i ops r : drop_of h i ops = Some r -> In r (may_drop i ops).
Proof.
  unfold drop_of, merged. destruct h as [[hi hops]|]; [|discriminate]. destruct hi; try discriminate. destruct hops as [|a [|b [|]]]; try discriminate.
  destruct i; try discriminate.
  - destruct ops as [|a' [|b' [|]]]; try discriminate. destruct (reg_matches b a') eqn:E; [|discriminate].
    destruct (negb _); [|discriminate]. cbn. destruct b, a'; try discriminate. apply reg_eqb_eq in E. subst. intros H. injection H as <-. now left.
  - destruct ops as [|a' [|]]; try discriminate. destruct (reg_matches b a') eqn:E; [|discriminate].
    cbn. destruct b, a'; try discriminate. apply reg_eqb_eq in E. subst. intros H. injection H as <-. now left.
Qed.
Lemma settled_mono (D D' : reg -> bool) i ops r : (forall q, D q = false -> D' q = false) -> settled D i ops r = false -> settled D' i ops r = false.
Proof.
  intros H. unfold settled. destruct i; try (destruct (existsb _ _); auto; fail).
  destruct ops as [|[] [|[] [|]]]; try (destruct (existsb _ _); auto; fail). destruct (reg_eqb _ _); auto.
Qed.
Lemma firstn_cases {A} (l : list A) (Q : list A -> Prop) n :
  (forall k, In k (List.seq 0 (S (List.length l))) -> Q (firstn k l)) -> Q (firstn n l).
Proof.
  intros H. destruct (Nat.le_gt_cases n (List.length l)) as [L|L].
  - apply H, in_seq. lia.
  - rewrite firstn_all2 by lia. rewrite <- (firstn_all l). apply H, in_seq. lia.
Qed.

Section Gen.
(** What is known at the numbered labels: the registers and whether the function
    returns a value. *)
Variable A : nat -> list reg * bool.
Variable takes gives : string -> list reg.
Variable prog : list fundef.
Definition need (l : label) : list reg :=
  match l with LGen _ n => fst (A n) | LIoob => [rsp; rbp; rax; rbx] | _ => [] end.
Definition lval (l : label) : bool := match l with LGen _ n => snd (A n) | LIoob => true | _ => false end.
Definition known (f : string) : bool := match lookup (program_sigs prog) f with Some _ => true | None => false end.
Notation next := (next need lval (program_sig prog)).
Notation checks := (checks need lval (program_sig prog) known takes gives).
Notation fine := (fine need lval (program_sig prog) known takes gives).
Definition slice (base : nat) (ks : list (list reg * bool)) : Prop :=
  forall j p, nth_error ks j = Some p -> A (base + j) = p.
Lemma slice_app b k1 k2 : slice b (k1 ++ k2) -> slice b k1 /\ slice (b + List.length k1) k2.
Proof.
  intros H. split; intros j p Hj.
  - apply H. rewrite nth_error_app1; [exact Hj|]. apply nth_error_Some. congruence.
  - rewrite <- Nat.add_assoc. apply H. rewrite nth_error_app2 by lia. now replace (List.length k1 + j - List.length k1) with j by lia.
Qed.
Lemma slice_cons b p k : slice b (p :: k) -> A b = p /\ slice (S b) k.
Proof.
  intros H. split; [rewrite <- (Nat.add_0_r b); now apply H|]. intros j q Hj. replace (S b + j) with (b + S j) by lia. now apply H.
Qed.

Lemma plain_next x i ops pre : plain_ins i = true -> ins_ok pre i ops = true -> has (f_clean x) pre ->
  fine x (EIns i ops) /\ has (f_clean (next x (EIns i ops))) (clean_after pre i ops) /\
  f_val (next x (EIns i ops)) = f_val x /\ f_sites (next x (EIns i ops)) = f_sites x.
Proof.
  intros Hp Ho H. unfold ins_ok in Ho. apply andb_true_iff in Ho as [Hn Hd]. rewrite forallb_forall in Hn, Hd.
  assert (Hn' : has (f_clean x) (needs i ops)) by (intros r Hr; apply H, mem_in, Hn, Hr).
  assert (Hd' : forall r, drop_of (f_held x) i ops = Some r -> ~ In r (other_uses i ops)).
  { intros r Hr Hi. apply merged_drop in Hr. apply Hd in Hr. apply negb_true_iff in Hr. apply mem_in in Hi. congruence. }
  assert (Hc : forall r, In r (clean_after pre i ops) ->
    match drop_of (f_held x) i ops with
    | Some r' => if reg_eqb r r' then false else negb (settled (fun q => negb (f_clean x q)) i ops r)
    | None => negb (settled (fun q => negb (f_clean x q)) i ops r) end = true).
  { intros r Hr. apply filter_In in Hr as [_ Hr]. apply andb_true_iff in Hr as [H1 H2]. apply negb_true_iff in H1, H2.
    assert (K : negb (settled (fun q => negb (f_clean x q)) i ops r) = true).
    { apply negb_true_iff. revert H2. apply settled_mono. intros q Hq. apply negb_false_iff in Hq. apply negb_false_iff. apply H, mem_in, Hq. }
    destruct (drop_of _ _ _) as [r'|] eqn:E; [|exact K]. destruct (reg_eqb r r') eqn:E'; [|exact K].
    apply reg_eqb_eq in E'. subst. apply merged_drop in E. apply mem_in in E. congruence. }
  split; [|split; [|split]].
  - destruct i; try discriminate; (split; [|split; [exact Hd'|exact I]]); exact Hn'.
  - destruct i; try discriminate; exact Hc.
  - destruct i; try discriminate; reflexivity.
  - destruct i; try discriminate; reflexivity.
Qed.

Section Value.
Variable V : bool.
(** Code that can be entered with [pre] right and is left with [post] right; [st] are its
    calls. *)
Definition tr (pre : list reg) (c : list event) (st : list site) (post : list reg) : Prop :=
  forall x rest, has (f_clean x) pre -> f_val x = V -> f_sites x = st ++ rest ->
  checks x c /\ has (f_clean (fold_left next c x)) post /\ f_val (fold_left next c x) = V /\ f_sites (fold_left next c x) = rest.

Lemma tr_seq p c1 s1 q c2 s2 r : tr p c1 s1 q -> tr q c2 s2 r -> tr p (c1 ++ c2) (s1 ++ s2) r.
Proof.
  intros H1 H2 x rest HA C D. rewrite <- app_assoc in D. destruct (H1 x (s2 ++ rest) HA C D) as (K1 & A1 & C1 & D1).
  destruct (H2 _ rest A1 C1 D1) as (K2 & E2). rewrite fold_left_app. split; [now apply checks_app|exact E2].
Qed.
Lemma tr_then p c1 q c2 s r : tr p c1 [] q -> tr q c2 s r -> tr p (c1 ++ c2) s r.
Proof. apply (tr_seq p c1 [] q c2 s r). Qed.
Lemma tr_last p c1 q c2 s r : tr p c1 s q -> tr q c2 [] r -> tr p (c1 ++ c2) s r.
Proof. intros H1 H2. rewrite <- (app_nil_r s). now apply tr_seq with q. Qed.
Lemma tr_weaken p p' c s q q' : tr p c s q -> incl p p' -> incl q' q -> tr p' c s q'.
Proof.
  intros H Hp Hq x rest HA C D. destruct (H x rest) as (K1 & A1 & E); [intros r Hr; apply HA, Hp, Hr|assumption..|].
  split; [exact K1|]. split; [intros r Hr; apply A1, Hq, Hr|exact E].
Qed.
Lemma tr_nil p q : incl q p -> tr p [] [] q.
Proof. intros H x rest HA C D. split; [exact I|]. split; [intros r Hr; apply HA, H, Hr|auto]. Qed.

Lemma tr_code pre c post : okc pre c post = true -> tr pre c [] post.
Proof.
  unfold okc. destruct (runs pre c) as [q|] eqn:E; [|discriminate]. intros Hq. rewrite forallb_forall in Hq.
  assert (K : tr pre c [] q).
  { clear Hq post. revert pre E. induction c as [|e c IH]; intros pre E.
    - injection E as ->. apply tr_nil, incl_refl.
    - destruct e as [i ops| | | | | | |]; cbn [runs] in E; try discriminate.
      + destruct (plain_ins i) eqn:P1; [|discriminate]. destruct (ins_ok pre i ops) eqn:P2; [|discriminate]. cbn [andb] in E.
        apply (tr_then pre [EIns i ops] (clean_after pre i ops)); [|now apply IH].
        intros x rest HA C D. destruct (plain_next x i ops pre P1 P2 HA) as (F & G & H1 & H2).
        split; [split; [exact F|exact I]|]. cbn [fold_left]. split; [exact G|]. now rewrite H1, H2.
      + apply (tr_then pre [EAddr l] pre); [|now apply IH]. intros x rest HA C D. repeat split; auto.
      + apply (tr_then pre [EFlush] pre); [|now apply IH]. intros x rest HA C D. repeat split; auto. }
  apply (tr_weaken pre pre c [] q post K); [apply incl_refl|]. intros r Hr. apply mem_in, Hq, Hr.
Qed.
Definition upto6 : list nat := [0; 1; 2; 3; 4; 5; 6].
Lemma tr_code_k k X c Y : forallb (fun k => okc (R k X) c (R k Y)) upto6 = true -> tr (R k X) c [] (R k Y).
Proof.
  intros H. rewrite forallb_forall in H. apply (firstn_cases arg_regs (fun l => tr (X ++ l) c [] (Y ++ l))).
  intros j Hj. apply tr_code, H, Hj.
Qed.

(** Jumps and labels. *)
Lemma tr_jmp pre l post : incl (need l) pre -> lval l = V -> tr pre [EIns jmp [OLab l]] [] post.
Proof.
  intros H Hv x rest HA C D. split; [|cbn; repeat split; auto].
  split; [|exact I]. split; [intros r []|]. split; [intros r Hr; apply merged_drop in Hr; destruct Hr|].
  split; [intros r Hr; apply HA, H, Hr|intros; congruence].
Qed.
Lemma tr_branch i pre l : i = jne \/ i = jae -> incl (need l) pre -> (V = true -> lval l = true) -> tr pre [EIns i [OLab l]] [] pre.
Proof.
  intros Hi H Hv x rest HA C D. assert (Dn : drop_of (f_held x) i [OLab l] = None).
  { destruct (drop_of _ _ _) eqn:E; [|reflexivity]. apply merged_drop in E. destruct Hi as [-> | ->]; destruct E. }
  split.
  - split; [|exact I]. split; [destruct Hi as [-> | ->]; intros r []|]. split; [congruence|].
    destruct Hi as [-> | ->]; (split; [intros r Hr; apply HA, H, Hr|intros; apply Hv; congruence]).
  - destruct Hi as [-> | ->]; cbn; rewrite Dn; (split; [|auto]); intros r Hr; cbn; rewrite (HA r Hr); reflexivity.
Qed.
Lemma tr_label pre l : incl (need l) pre -> lval l = V -> tr pre [ELabel l] [] (need l).
Proof.
  intros H Hv x rest HA C D. split.
  - split; [|exact I]. split; [intros r Hr; apply HA, H, Hr|intros; congruence].
  - cbn. split; [|auto]. intros r Hr. now apply in_list_has.
Qed.

(** Calls. *)
Lemma tr_call_name pre f c variadic : callable takes gives prog f c variadic ->
  incl (rsp :: rbp :: firstn (s_args c) arg_regs ++ if variadic then [rax] else []) pre ->
  tr pre [EIns call [OFn f]] [c] (left (s_wants c)).
Proof.
  intros Hc H x rest HA C D. cbn in D. assert (HA' : has (f_clean x) (rsp :: rbp :: firstn (s_args c) arg_regs ++ if variadic then [rax] else [])).
  { intros r Hr. apply HA, H, Hr. }
  split.
  - split; [|exact I]. split; [intros r [<-|[]]; apply HA'; now left|]. split; [intros r Hr; apply merged_drop in Hr; destruct Hr|].
    exists c, rest. split; [exact D|]. unfold callable in Hc. unfold known, program_sig. destruct (lookup (program_sigs prog) f) as [g|].
    + split; [exact Hc|]. intros r [<-|[<-|Hr]]; apply HA'; cbn; auto. right. right. apply in_or_app. auto.
    + destruct Hc as [H1 H2]. split; [intros r Hr; apply HA', H1, Hr|exact H2].
  - cbn. rewrite D. cbn. split; [|auto]. intros r Hr. now apply in_list_has.
Qed.
Lemma tr_call_mem pre m c : incl (rsp :: address_regs m) pre -> incl (entry (s_args c)) pre ->
  tr pre [EIns call [OMem m]] [c] (left (s_wants c)).
Proof.
  intros Hm H x rest HA C D. cbn in D. split.
  - split; [|exact I]. split; [intros r Hr; apply HA, Hm, Hr|]. split; [intros r Hr; apply merged_drop in Hr; destruct Hr|].
    exists c, rest. split; [exact D|]. intros r Hr. apply HA, H, Hr.
  - cbn. rewrite D. cbn. split; [|auto]. intros r Hr. now apply in_list_has.
Qed.

(** The end of a function: nothing is assumed about what comes after it. *)
Lemma tr_exit ext s c s' post : gen_exit ext s = Some (c, s') -> tr (left V) c [] post.
Proof.
  intros H. apply gen_exit_inv in H as [-> ->]. apply tr_then with (left V).
  { apply tr_code. destruct V; reflexivity. }
  intros x rest HA C D. destruct ext.
  - cbn. split; [|repeat split; auto]. split; [|split; exact I]. split; [intros r [<-|[]]; apply HA; now left|].
    split; [intros r Hr; apply merged_drop in Hr; destruct Hr|]. now rewrite C.
  - assert (K : tr (left V) ([EIns popq [OReg rbx]; EIns addq [OImm 8; OReg rbx]] ++ [EIns jmp [OMem (Mem rbx None 0 0 true false)]] ++ [EFlush]) [] post).
    { apply tr_then with (rbx :: left V); [apply tr_code; destruct V; reflexivity|]. clear x rest HA C D. intros x rest HA C D.
      cbn. split; [|repeat split; auto]. split; [|split; exact I]. split; [intros r [<-|[]]; apply HA; now left|].
      split; [intros r Hr; apply merged_drop in Hr; destruct Hr|]. rewrite C. intros r Hr. apply HA. now right. }
    exact (K x rest HA C D).
Qed.

(* --------------------------------------------------------------------- expressions *)

(** What is known at the labels of an expression, in the order of their numbers, when [k]
    arguments have been passed. *)
Definition mark (k : nat) (v : bool) : list reg * bool := (R k (left v), V).
Fixpoint expr_ks (k : nat) (e : expr) : list (list reg * bool) :=
  let fix args_ks (i : nat) (l : list expr) : list (list reg * bool) :=
    match l with [] => [] | a :: r => expr_ks i a ++ args_ks (S i) r end in
  match e with
  | ELogic _ _ l r | EArith _ _ l r | ECmp _ _ l r | EShift _ _ l r | EDot _ l r | EIndex _ l r =>
      expr_ks k l ++ expr_ks k r
  | ENot _ a | EBNot _ a | ENeg _ a | EArrayLit _ a => expr_ks k a
  | ECond _ c a b => expr_ks k c ++ [mark k false; mark k (yields a && yields b)] ++ expr_ks k a ++ expr_ks k b
  | ECall _ _ _ args | ECallVar _ _ _ args => args_ks 0 args
  | ECallExpr _ _ e1 args => expr_ks k e1 ++ args_ks 0 args
  | _ => []
  end.
Fixpoint args_ks (i : nat) (l : list expr) : list (list reg * bool) :=
  match l with [] => [] | a :: r => expr_ks i a ++ args_ks (S i) r end.

(** How many labels a generator makes. *)
Definition lb (n : nat) (g : gen) : Prop := forall s c s', g s = Some (c, s') -> g_lab s' = g_lab s + n.
Lemma lb_seq n m a b : lb n a -> lb m b -> lb (n + m) (seq a b).
Proof. intros Ha Hb s c s' H. apply seq_inv in H as (c1 & s1 & c2 & H1 & H2 & ->). apply Ha in H1. apply Hb in H2. lia. Qed.
Lemma lb_quiet g : quiet g -> lb 0 g.
Proof. intros Hg s c s' H. apply Hg in H as (_ & -> & _). lia. Qed.
Lemma lb_new n p k : (forall l, lb n (k l)) -> lb (S n) (new_label p k).
Proof. intros Hk s c s' H. apply new_label_inv in H as (c' & -> & H). apply Hk in H. cbn in H. lia. Qed.
Lemma lb_emit e : lb 0 (emit e).
Proof. intros s c s' H. apply emit_inv in H as [_ ->]. lia. Qed.
Lemma lb_ins i ops : lb 0 (ins i ops).
Proof. apply lb_emit. Qed.
Lemma lb_gc : lb 0 gc_map.
Proof. intros s c s' H. unfold gc_map in H. destruct (g_roots s); injection H as <- <-; cbn; lia. Qed.
Lemma lb_eq n m g : lb n g -> n = m -> lb m g.
Proof. now intros H <-. Qed.
Lemma lb_skip n a b : lb 0 a -> lb n b -> lb n (seq a b).
Proof. intros Ha Hb. now apply (lb_seq 0 n). Qed.
Lemma lb_skipr n a b : lb n a -> lb 0 b -> lb n (seq a b).
Proof. intros Ha Hb. apply (lb_eq (n + 0)); [now apply lb_seq|lia]. Qed.
Lemma lb_finish fi cl : lb 0 (finish_call fi cl).
Proof.
  unfold finish_call. apply lb_skip; [apply lb_quiet; quiet_tac|]. apply lb_skip; [apply lb_quiet; quiet_tac|].
  apply lb_skip.
  { apply lb_quiet. apply (quiet_at (fun s => if sp_aligned s then nop else ins subq [OImm 8; OReg rsp])). intros. quiet_tac. }
  apply lb_skip; [apply lb_quiet; quiet_tac|]. apply lb_skip; [apply lb_quiet; quiet_tac|].
  apply lb_skip; [destruct (fi_external fi); [apply lb_quiet; quiet_tac|apply lb_gc]|]. apply lb_skip; [|apply lb_quiet; quiet_tac].
  apply lb_quiet. apply (quiet_at (fun s => if sp_aligned s then nop else ins addq [OImm 8; OReg rsp])). intros. quiet_tac.
Qed.
Lemma lb_pass fi i t : lb 0 (pass_arg fi i t).
Proof. apply lb_quiet. unfold pass_arg. quiet_tac. Qed.
Lemma lb_args slot fi args : Forall (fun e => forall ta k, lb (List.length (expr_ks k e)) (gen_expr slot e ta)) args ->
  forall i j, lb (List.length (args_ks j args)) (gen_args slot fi i args).
Proof.
  induction 1 as [|e args He _ IH]; intros i j; cbn [gen_args args_ks]; [apply lb_quiet, quiet_nop|].
  rewrite app_length. apply lb_seq; [apply He|]. apply lb_skip; [apply lb_pass|apply IH].
Qed.
Ltac lb_tac := first
  [ apply lb_ins | apply lb_emit | apply lb_gc | apply lb_quiet; quiet_tac ].
Lemma lb_expr slot e : forall ta k, lb (List.length (expr_ks k e)) (gen_expr slot e ta).
Proof.
  induction e using expr_ind'; intros ta k;
    try (rewrite gen_expr_call || rewrite gen_expr_call_var || rewrite gen_expr_call_expr); try cbn [gen_expr].
  all: try (change (expr_ks k (ECall t fi f args)) with (args_ks 0 args)).
  all: try (change (expr_ks k (ECallVar t fi x args)) with (args_ks 0 args)).
  all: try (change (expr_ks k (ECallExpr t fi e args)) with (expr_ks k e ++ args_ks 0 args)).
  all: cbn [expr_ks].
  all: try solve [lb_tac].
  all: try solve [apply lb_skipr; [eauto|lb_tac]].
  all: try solve [rewrite app_length; apply lb_seq; [eauto|]; repeat (apply lb_skip; [lb_tac|]); apply lb_skipr; [eauto|lb_tac]].
  - rewrite !app_length. cbn [List.length]. apply lb_seq; [eauto|]. apply lb_new. intros l1. apply lb_new. intros l2.
    repeat (apply lb_skip; [lb_tac|]). apply lb_seq; [eauto|]. repeat (apply lb_skip; [lb_tac|]). apply lb_skipr; [eauto|lb_tac].
  - apply IHe.
  - apply lb_skip; [lb_tac|]. apply lb_skipr; [now apply lb_args|apply lb_finish].
  - apply lb_skip; [lb_tac|]. apply lb_skipr; [now apply lb_args|apply lb_finish].
  - rewrite app_length. apply lb_seq; [apply IHe|]. apply lb_skip; [lb_tac|]. apply lb_skip; [lb_tac|].
    apply lb_skipr; [now apply lb_args|apply lb_finish].
  - rewrite app_length. apply lb_seq; [apply IHe1|]. apply lb_skip; [lb_tac|]. apply lb_skipr; [apply IHe2|].
    repeat (apply lb_skip; [lb_tac|]). lb_tac.
Qed.

(** Calls: spilling, passing arguments, the call itself and restoring. *)
Lemma tr_spill k : k <= 6 -> tr (R k (left false)) (spill_code 0 k) [] (left false).
Proof. intros H. do 7 (destruct k as [|k]; [apply tr_code; reflexivity|]). lia. Qed.
Lemma tr_pass fi i t r : nth_error arg_regs i = Some r -> tr (R i (left true)) (pass_code fi r t) [] (R (S i) (left false)).
Proof.
  intros H. unfold pass_code. do 6 (destruct i as [|i]; [injection H as <-; destruct (fi_external fi && fi_raw fi); [destruct (ty_kind t)|]; apply tr_code; reflexivity|]).
  destruct i; discriminate.
Qed.
Lemma tr_pass_type i n r : nth_error arg_regs i = Some r -> n <= i -> tr (R n (left false)) [EIns movq [OReg rax; OReg r]] [] (R n (left false)).
Proof.
  intros H L. do 6 (destruct i as [|i]; [injection H as <-; do 6 (destruct n as [|n]; [first [exfalso; lia|apply tr_code; reflexivity]|]); exfalso; lia|]).
  destruct i; discriminate.
Qed.
Definition before_call (fi : fninfo) (cl : callee) (odd : bool) : list event :=
  (if fi_variadic fi then [EIns movq [OImm 0; OReg rax]] else []) ++
  (match cl with CSaved => [EIns popq [OReg rax]] | _ => [] end) ++
  (if odd then [EIns subq [OImm 8; OReg rsp]] else []).
Definition after_call (fi : fninfo) (odd : bool) (gc : list event) (k : nat) : list event :=
  (if fi_external fi && fi_raw fi && kind_eqb (fi_ret fi) TInteger
   then [EIns shlq [OImm 1; OReg rax]; EIns orq [OImm 1; OReg rax]] else []) ++
  gc ++ (if odd then [EIns addq [OImm 8; OReg rsp]] else []) ++ unspill_code 0 k.
Lemma tr_before fi cl odd p : tr (R p (left false)) (before_call fi cl odd) []
  (R p (left (fi_variadic fi || match cl with CSaved => true | _ => false end))).
Proof.
  unfold before_call. destruct (fi_variadic fi), cl, odd; apply tr_code_k; reflexivity.
Qed.
Lemma tr_after t fi odd gc k : raw_ok t fi -> (gc = [] \/ exists l, gc = [EAddr l]) -> k <= 6 ->
  tr (left (negb (kind_eqb (ty_kind t) TNothing))) (after_call fi odd gc k) [] (R k (left (negb (kind_eqb (ty_kind t) TNothing)))).
Proof.
  intros Hr Hg Hk. unfold after_call, raw_ok in *. destruct (fi_external fi && fi_raw fi && kind_eqb (fi_ret fi) TInteger).
  - rewrite (Hr eq_refl). do 7 (destruct k as [|k]; [apply tr_code; destruct Hg as [->|[l ->]], odd; reflexivity|]). lia.
  - destruct (negb _); (do 7 (destruct k as [|k]; [apply tr_code; destruct Hg as [->|[l ->]], odd; reflexivity|])); lia.
Qed.
Lemma incl_left b v n : (b = true -> v = true) -> incl (rsp :: rbp :: firstn n arg_regs ++ if b then [rax] else []) (R n (left v)).
Proof.
  intros H r [<-|[<-|Hr]]; [now left|cbn; auto|]. apply in_app_iff. apply in_app_iff in Hr as [Hr|Hr]; [auto|].
  destruct b; [|contradiction]. rewrite H by reflexivity. destruct Hr as [<-|[]]. cbn. auto.
Qed.
Lemma tr_finish fi cl t args s c s' : finish_call fi cl s = Some (c, s') -> raw_ok t fi ->
  (match cl with CName f => callable takes gives prog f (own_site t args) (fi_variadic fi) | _ => True end) ->
  List.length (hd [] (tl (g_reg s))) <= 6 ->
  tr (R (passed args) (left false)) c [own_site t args]
    (R (List.length (hd [] (tl (g_reg s)))) (left (negb (kind_eqb (ty_kind t) TNothing)))).
Proof.
  intros H Hr Hc Hk. apply finish_call_inv in H as (gc & Hg & _ & -> & _). 
  assert (Hg' : gc = [] \/ exists l, gc = [EAddr l]) by (destruct (fi_external fi); auto).
  unfold call_code_of. set (odd := negb _).
  match goal with |- tr _ (?a ++ ?b ++ ?c ++ ?d ++ ?e) _ _ =>
    replace (a ++ b ++ c ++ d ++ e) with (before_call fi cl odd ++ d ++ after_call fi odd gc (List.length (hd [] (tl (g_reg s)))))
      by (unfold before_call, after_call; now rewrite <- !app_assoc) end.
  apply tr_then with (R (passed args) (left (fi_variadic fi || match cl with CSaved => true | _ => false end))); [apply tr_before|].
  apply tr_last with (left (negb (kind_eqb (ty_kind t) TNothing))); [|now apply tr_after].
  destruct cl as [f|a|].
  - apply (tr_call_name _ f (own_site t args) (fi_variadic fi) Hc). apply incl_left. intros ->. reflexivity.
  - apply (tr_call_mem _ _ (own_site t args)).
    + intros r [<-|[<-|[]]]; cbn; auto.
    + intros r Hin. apply (incl_left false _ _ ltac:(discriminate)). rewrite app_nil_r. exact Hin.
  - rewrite orb_true_r. apply (tr_call_mem _ _ (own_site t args)).
    + intros r [<-|[<-|[]]]; cbn; auto.
    + intros r Hin. apply (incl_left false _ _ ltac:(discriminate)). rewrite app_nil_r. exact Hin.
Qed.

(** The claim about an expression. *)
Definition expr_claim (slot : nat -> Z) (e : expr) : Prop := forall ta s c s' k,
  gen_expr slot e ta s = Some (c, s') -> sound takes gives prog e -> List.length (in_use_types s) = k ->
  slice (g_lab s) (expr_ks k e) ->
  tr (R k (left false)) c (expr_sites e) (R k (left (yields e))).

Lemma tr_types slot fi args : fi_external fi && fi_raw fi = false -> forallb is_type args = true ->
  forall i n s c s', gen_args slot fi i args s = Some (c, s') -> n <= i -> tr (R n (left false)) c [] (R n (left false)).
Proof.
  intros Hraw. induction args as [|a args IH]; intros Ht i n s c s' H L; cbn [gen_args] in H.
  - ginv H. apply tr_nil, incl_refl.
  - cbn in Ht. apply andb_true_iff in Ht as [Ha Ht]. destruct a; try discriminate.
    apply seq_inv in H as (c1 & s1 & c2 & H1 & H & ->). cbn in H1. ginv H1. apply seq_inv in H as (c3 & s3 & c4 & H3 & H & ->).
    apply pass_arg_inv in H3 as (r & N & -> & _). unfold pass_code. rewrite Hraw. cbn [app].
    apply tr_then with (c1 := [EIns movq [OReg rax; OReg r]]) (q := R n (left false)); [now apply (tr_pass_type i)|].
    apply (IH Ht (S i) n _ _ _ H). lia.
Qed.
Lemma tr_args slot fi args : Forall (expr_claim slot) args -> sound_args takes gives prog (fi_external fi && fi_raw fi) args ->
  forall i s c s', gen_args slot fi i args s = Some (c, s') -> List.length (in_use_types s) = i -> slice (g_lab s) (args_ks i args) ->
  tr (R i (left false)) c (args_sites args) (R (i + passed args) (left false)).
Proof.
  induction 1 as [|a args Ha Hargs IH]; intros Hs i s c s' H Hi Hl.
  - cbn [gen_args] in H. ginv H. cbn. rewrite Nat.add_0_r. apply tr_nil, incl_refl.
  - cbn [sound_args passed args_sites args_ks] in *. destruct (yields a) eqn:Y.
    + destruct Hs as [Hs1 Hs2]. cbn [gen_args] in H. apply seq_inv in H as (c1 & s1 & c2 & H1 & H & ->).
      apply seq_inv in H as (c3 & s3 & c4 & H3 & H & ->). apply slice_app in Hl as [Hl1 Hl2].
      pose proof (gen_expr_eff _ _ _ _ _ _ H1) as (_ & E2 & _). pose proof (lb_expr slot a false i _ _ _ H1) as E3.
      pose proof (lb_pass _ _ _ _ _ _ H3) as E4. apply pass_arg_inv in H3 as (r & N & -> & _ & G & _ & _).
      apply tr_seq with (R i (left true)); [rewrite <- Y; eapply Ha; eauto|].
      apply tr_then with (R (S i) (left false)); [now apply tr_pass|]. rewrite <- Nat.add_succ_comm.
      apply (IH Hs2 (S i) s3 _ _ H).
      * unfold in_use_types in *. rewrite G, E2. cbn [hd]. rewrite app_length. cbn. lia.
      * rewrite E4, Nat.add_0_r, E3. exact Hl2.
    + destruct Hs as [Hraw Ht]. rewrite Nat.add_0_r.
      assert (E : expr_sites a ++ args_sites args = []).
      { assert (K : forall l, forallb is_type l = true -> args_sites l = []).
        { induction l as [|b l IHl]; [reflexivity|]. cbn. intros K. apply andb_true_iff in K as [K1 K2]. rewrite IHl by exact K2. now destruct b. }
        apply (K (a :: args) Ht). }
      rewrite E. eapply tr_types; eauto.
Qed.
Lemma tr_call slot fi cl t args : Forall (expr_claim slot) args -> sound_args takes gives prog (fi_external fi && fi_raw fi) args -> raw_ok t fi ->
  (match cl with CName f => callable takes gives prog f (own_site t args) (fi_variadic fi) | _ => True end) ->
  forall s c s' k, seq spill_registers (seq (gen_args slot fi 0 args) (finish_call fi cl)) s = Some (c, s') ->
  List.length (in_use_types s) = k -> slice (g_lab s) (args_ks 0 args) ->
  tr (R k (left false)) c (args_sites args ++ [own_site t args]) (R k (left (negb (kind_eqb (ty_kind t) TNothing)))).
Proof.
  intros Ha Hs Hr Hc s c s' k H Hk Hl. apply seq_inv in H as (c1 & s1 & c2 & H1 & H & ->). apply seq_inv in H as (c3 & s3 & c4 & H3 & H & ->).
  pose proof (lb_quiet _ quiet_spill_registers _ _ _ H1) as E1.
  apply spill_registers_inv in H1 as (-> & I1 & I2 & I3 & I4). rewrite Hk in *.
  apply tr_then with (R 0 (left false)); [cbn [firstn]; rewrite app_nil_r; now apply tr_spill|].
  assert (Ef : Forall (fun e => forall ta s c s', gen_expr slot e ta s = Some (c, s') -> eff s s') args).
  { apply Forall_forall. intros e _. apply gen_expr_eff. }
  pose proof (gen_args_eff slot args Ef _ _ _ _ _ H3) as (_ & J2 & _). rewrite I3 in J2. cbn [tl] in J2.
  apply tr_seq with (R (0 + passed args) (left false)).
  - eapply tr_args; eauto; [unfold in_use_types; now rewrite I3|]. now rewrite E1, Nat.add_0_r.
  - cbn [Nat.add]. pose proof (tr_finish fi cl t args s3 c4 s' H Hr Hc) as T. rewrite J2 in T. unfold in_use_types in Hk. rewrite Hk in T. now apply T.
Qed.

Ltac code := apply tr_code_k; reflexivity.
Lemma tr_code_then k X c Y c2 st post : forallb (fun k => okc (R k X) c (R k Y)) upto6 = true ->
  tr (R k Y) c2 st post -> tr (R k X) (c ++ c2) st post.
Proof. intros H. apply tr_then. now apply tr_code_k. Qed.
(** Two operands, the first of them on the stack while the second is computed. *)
Lemma tr_two k c1 st1 m1 c2 st2 m2 Y :
  tr (R k (left false)) c1 st1 (R k (left true)) ->
  forallb (fun k => okc (R k (left true)) m1 (R k (left false))) upto6 = true ->
  tr (R k (left false)) c2 st2 (R k (left true)) ->
  tr (R k (left true)) m2 [] Y ->
  tr (R k (left false)) (c1 ++ m1 ++ c2 ++ m2) (st1 ++ st2) Y.
Proof.
  intros H1 Hm1 H2 Hm2. apply tr_seq with (R k (left true)); [exact H1|]. apply tr_code_then with (left false); [exact Hm1|].
  now apply tr_last with (R k (left true)).
Qed.
Lemma claim_true slot e ta s c s' k : expr_claim slot e -> gen_expr slot e ta s = Some (c, s') -> sound takes gives prog e -> yields e = true ->
  List.length (in_use_types s) = k -> slice (g_lab s) (expr_ks k e) -> tr (R k (left false)) c (expr_sites e) (R k (left true)).
Proof. intros H G Hs Hy Hk Hl. rewrite <- Hy. eapply H; eauto. Qed.
Ltac after_first G Hl :=
  let E2 := fresh "E" in let E3 := fresh "E" in
  pose proof (gen_expr_eff _ _ _ _ _ _ G) as (_ & E2 & _); pose proof (lb_expr _ _ _ _ _ _ _ G) as E3.
Lemma two_claims slot l r ta tb s c1 s1 s2 c2 s3 k : expr_claim slot l -> expr_claim slot r ->
  gen_expr slot l ta s = Some (c1, s1) -> gen_expr slot r tb s2 = Some (c2, s3) -> g_reg s2 = g_reg s1 -> g_lab s2 = g_lab s1 ->
  yields l = true /\ yields r = true /\ sound takes gives prog l /\ sound takes gives prog r ->
  List.length (in_use_types s) = k -> slice (g_lab s) (expr_ks k l ++ expr_ks k r) ->
  tr (R k (left false)) c1 (expr_sites l) (R k (left true)) /\ tr (R k (left false)) c2 (expr_sites r) (R k (left true)).
Proof.
  intros Hl Hr G1 G2 Er El (Y1 & Y2 & S1 & S2) Hk Hs. apply slice_app in Hs as [Hs1 Hs2].
  pose proof (gen_expr_eff _ _ _ _ _ _ G1) as (_ & E2 & _). pose proof (lb_expr slot l ta k _ _ _ G1) as E3.
  split; [exact (claim_true slot l ta s c1 s1 k Hl G1 S1 Y1 Hk Hs1)|]. apply (claim_true slot r tb s2 c2 s3 k Hr G2 S2 Y2).
  - unfold in_use_types in *. now rewrite Er, E2.
  - now rewrite El, E3.
Qed.

Lemma tr_expr slot e : expr_claim slot e.
Proof.
  induction e using expr_ind'; intros ta s0 c0 s0' k H0 Hs Hk0 Hl;
    pose proof (conj Hk0 I) as Hkk; clear Hk0.
  - (* ELitInt *) cbn [gen_expr] in H0. apply seq_inv in H0 as (c1 & s1 & c2 & H1 & H2 & ->). ginv H2. cbn [yields expr_sites].
    destruct (_ || _) in H1; [ginv H1|]. destruct (_ || _) in H1; ginv H1; code.
  - cbn [gen_expr] in H0. ginv H0. destruct b; code.
  - cbn [gen_expr] in H0. ginv H0. code.
  - cbn [gen_expr] in H0. ginv H0. edestruct (two_claims slot e1 e2) as [T1 T2]; [exact IHe1|exact IHe2|eassumption|eassumption|reflexivity|reflexivity|exact Hs|exact (proj1 Hkk)|exact Hl|].
    eapply (tr_two k _ _ [EIns pushq [OReg rax]]); [exact T1|reflexivity|exact T2|]. destruct op; code.
  - cbn [gen_expr] in H0. apply seq_inv in H0 as (c1 & s1 & c2 & H1 & H0 & ->). ginv H0.
    edestruct (two_claims slot e1 e2) as [T1 T2]; [exact IHe1|exact IHe2|eassumption|eassumption|reflexivity|reflexivity|exact Hs|exact (proj1 Hkk)|exact Hl|].
    eapply (tr_two k _ _ [EIns sarq [OImm 1; OReg rax]; EIns pushq [OReg rax]]); [exact T1|reflexivity|exact T2|].
    destruct op; match goal with G : _ = Some (?c, _) |- context [?c] => ginv G end; code.
  - cbn [gen_expr] in H0. ginv H0. destruct Hs as [Y S]. cbn [expr_sites]. eapply tr_last; [eapply claim_true; eauto; exact (proj1 Hkk)|]. code.
  - cbn [gen_expr] in H0. ginv H0. destruct Hs as [Y S]. cbn [expr_sites]. eapply tr_last; [eapply claim_true; eauto; exact (proj1 Hkk)|]. code.
  - cbn [gen_expr] in H0. ginv H0. destruct Hs as [Y S]. cbn [expr_sites]. eapply tr_last; [eapply claim_true; eauto; exact (proj1 Hkk)|]. code.
  - cbn [gen_expr] in H0. ginv H0. edestruct (two_claims slot e1 e2) as [T1 T2]; [exact IHe1|exact IHe2|eassumption|eassumption|reflexivity|reflexivity|exact Hs|exact (proj1 Hkk)|exact Hl|].
    eapply (tr_two k _ _ [EIns sarq [OImm 1; OReg rax]; EIns pushq [OReg rax]]); [exact T1|reflexivity|exact T2|]. destruct op; code.
  - cbn [gen_expr] in H0. ginv H0. edestruct (two_claims slot e1 e2) as [T1 T2]; [exact IHe1|exact IHe2|eassumption|eassumption|reflexivity|reflexivity|exact Hs|exact (proj1 Hkk)|exact Hl|].
    eapply (tr_two k _ _ [EIns sarq [OImm 1; OReg rax]; EIns pushq [OReg rax]]); [exact T1|reflexivity|exact T2|]. destruct op; code.
  - cbn [gen_expr] in H0. ginv H0. destruct ta; code.
  - cbn [gen_expr] in H0. destruct b; ginv H0; code.
  - cbn [gen_expr] in H0. ginv H0. code.
  - (* ECond *) cbn [gen_expr] in H0. destruct Hs as (Yc & Sc & Sa & Sb). cbn [expr_ks] in Hl.
    apply seq_inv in H0 as (c1 & s1 & c2 & H1 & H0 & ->). ginv1 H0.
    apply slice_app in Hl as [Hl1 Hl]. apply slice_cons in Hl as [A1 Hl]. apply slice_cons in Hl as [A2 Hl]. apply slice_app in Hl as [Hla Hlb].
    pose proof (gen_expr_eff _ _ _ _ _ _ H1) as (_ & E1 & _). pose proof (lb_expr slot e1 false k _ _ _ H1) as L1.
    match goal with G : gen_expr slot e2 _ _ = Some (?ca, ?sa) |- _ => rename G into Ga; rename ca into cca; rename sa into ssa end.
    match goal with G : gen_expr slot e3 _ _ = Some (?ca, ?sa) |- _ => rename G into Gb; rename ca into ccb; rename sa into ssb end.
    subst. pose proof (gen_expr_eff _ _ _ _ _ _ Ga) as (_ & E2 & _). pose proof (lb_expr slot e2 false k _ _ _ Ga) as L2.
    cbn [g_lab set_lab g_reg] in *. destruct Hkk as [Hk _].
    rewrite L1 in *. set (n := g_lab s0 + List.length (expr_ks k e1)) in *.
    assert (Nels : need (LGen PElse n) = R k (left false)) by (cbn [need]; now rewrite A1).
    assert (Nex : need (LGen PExit (S n)) = R k (left (yields e2 && yields e3))) by (cbn [need]; now rewrite A2).
    cbn [expr_sites yields]. apply tr_seq with (R k (left true)); [exact (claim_true slot e1 false s0 c1 s1 k IHe1 H1 Sc Yc Hk Hl1)|].
    eapply (tr_code_then k _ [EFlush; EFlush; EIns cmpq [true_op; OReg rax]] (left false)); [reflexivity|].
    apply tr_then with (R k (left false)).
    { apply tr_branch; [auto|rewrite Nels; apply incl_refl|]. intros Hv. cbn. now rewrite A1. }
    apply tr_seq with (R k (left (yields e2))).
    { apply (IHe2 false _ _ _ k Ga Sa); [unfold in_use_types in *; cbn; now rewrite E1|]. cbn. rewrite L1. exact Hla. }
    apply tr_then with (R k (left false)).
    { apply tr_jmp; [rewrite Nex|cbn; now rewrite A2]. intros r Hr. apply in_app_iff in Hr as [Hr|Hr]; apply in_app_iff; [left|right; exact Hr].
      destruct (yields e2), (yields e3); cbn in Hr |- *; tauto. }
    apply tr_then with (R k (left false)).
    { rewrite <- Nels. apply tr_label; [apply incl_refl|cbn; now rewrite A1]. }
    apply tr_last with (R k (left (yields e3))).
    { apply (IHe3 false _ _ _ k Gb Sb).
      - unfold in_use_types in *. rewrite E2. cbn. now rewrite E1.
      - rewrite L2. exact Hlb. }
    rewrite <- Nex. apply tr_label; [rewrite Nex|cbn; now rewrite A2]. intros r Hr. apply in_app_iff in Hr as [Hr|Hr]; apply in_app_iff; [left|right; exact Hr].
    destruct (yields e2), (yields e3); cbn in Hr |- *; tauto.
  - cbn [gen_expr] in H0. exact (IHe false s0 c0 s0' k H0 Hs (proj1 Hkk) Hl).
  - rewrite gen_expr_call in H0. destruct Hs as (Sa & Sr & Sc). exact (tr_call slot fi (CName f) t args H Sa Sr Sc _ _ _ k H0 (proj1 Hkk) Hl).
  - rewrite gen_expr_call_var in H0. destruct Hs as (Sa & Sr). exact (tr_call slot fi (CSlot (slot x)) t args H Sa Sr I _ _ _ k H0 (proj1 Hkk) Hl).
  - rewrite gen_expr_call_expr in H0. destruct Hs as (Ye & Se & Sa & Sr). apply seq_inv in H0 as (c1 & s1 & c2 & H1 & H0 & ->).
    apply seq_inv in H0 as (c3 & s3 & c4 & H3 & H0 & ->). ginv H3. change (slice (g_lab s0) (expr_ks k e ++ args_ks 0 args)) in Hl.
    apply slice_app in Hl as [Hl1 Hl2]. pose proof (gen_expr_eff _ _ _ _ _ _ H1) as (_ & E1 & _). pose proof (lb_expr slot e false k _ _ _ H1) as L1.
    change (tr (R k (left false)) (c1 ++ [EIns pushq [OReg rax]] ++ c4) (expr_sites e ++ args_sites args ++ [own_site t args]) (R k (left (negb (kind_eqb (ty_kind t) TNothing))))).
    apply tr_seq with (R k (left true)); [exact (claim_true slot e false s0 c1 s1 k IHe H1 Se Ye (proj1 Hkk) Hl1)|].
    eapply (tr_code_then k _ [EIns pushq [OReg rax]] (left false)); [reflexivity|].
    apply (tr_call slot fi CSaved t args H Sa Sr I _ _ _ k H0); [destruct Hkk as [Hk _]; unfold in_use_types in *; cbn; now rewrite E1|]. cbn. now rewrite L1.
  - cbn [gen_expr] in H0. ginv H0. edestruct (two_claims slot e1 e2) as [T1 T2]; [exact IHe1|exact IHe2|eassumption|eassumption|reflexivity|reflexivity|exact Hs|exact (proj1 Hkk)|exact Hl|].
    eapply (tr_two k _ _ [EIns pushq [OReg rax]]); [exact T1|reflexivity|exact T2|]. destruct ta; code.
  - cbn [gen_expr] in H0. ginv H0. edestruct (two_claims slot e1 e2) as [T1 T2]; [exact IHe1|exact IHe2|eassumption|eassumption|reflexivity|reflexivity|exact Hs|exact (proj1 Hkk)|exact Hl|].
    eapply (tr_two k _ _ [EIns pushq [OReg rax]]); [exact T1|reflexivity|exact T2|].
    eapply (tr_code_then k _ [_; _; _; _; _; _; _] (rbx :: left true)); [reflexivity|].
    eapply (tr_then (R k (rbx :: left true)) [_]).
    { apply tr_branch; [auto| |reflexivity]. intros r Hr. apply in_app_iff. left. cbn in Hr |- *. tauto. }
    destruct ta; code.
  - cbn [gen_expr] in H0. ginv H0. apply tr_nil, incl_refl.
Qed.
Lemma tr_expr0 slot e ta s c s' : gen_expr slot e ta s = Some (c, s') -> sound takes gives prog e -> g_reg s = [] ->
  slice (g_lab s) (expr_ks 0 e) -> tr (left false) c (expr_sites e) (left (yields e)).
Proof.
  intros H Hs Hr Hl. pose proof (tr_expr slot e ta s c s' 0 H Hs) as T. cbn [firstn] in T. rewrite !app_nil_r in T.
  apply T; [|exact Hl]. unfold in_use_types. now rewrite Hr.
Qed.

(* ---------------------------------------------------------------------- statements *)

Fixpoint stmt_ks (st : stmt) : list (list reg * bool) :=
  let fix list_ks (l : list stmt) : list (list reg * bool) :=
    match l with [] => [] | s :: r => stmt_ks s ++ list_ks r end in
  let fix branches_ks (bs : list (option expr * list stmt)) : list (list reg * bool) :=
    match bs with
    | [] => []
    | (Some c, b) :: r => expr_ks 0 c ++ [mark 0 false] ++ list_ks b ++ branches_ks r
    | (None, b) :: r => list_ks b ++ branches_ks r
    end in
  match st with
  | SReturn (Some e) => expr_ks 0 e
  | SReturn None => []
  | SIf bs => mark 0 false :: branches_ks bs
  | SDas _ _ e => expr_ks 0 e
  | SAs l e => expr_ks 0 e ++ expr_ks 0 l
  | SWhile c b => mark 0 false :: mark 0 false :: expr_ks 0 c ++ list_ks b
  | SBlock b => list_ks b
  | SExpr e => expr_ks 0 e
  end.
Fixpoint list_ks (l : list stmt) : list (list reg * bool) :=
  match l with [] => [] | s :: r => stmt_ks s ++ list_ks r end.
Fixpoint branches_ks (bs : list (option expr * list stmt)) : list (list reg * bool) :=
  match bs with
  | [] => []
  | (Some c, b) :: r => expr_ks 0 c ++ [mark 0 false] ++ list_ks b ++ branches_ks r
  | (None, b) :: r => list_ks b ++ branches_ks r
  end.

Section Stmts.
Variable slot : nat -> Z.
Variable x : bool.
Lemma lb_list l : Forall (fun st => lb (List.length (stmt_ks st)) (gen_stmt slot x st)) l -> lb (List.length (list_ks l)) (gen_list slot x l).
Proof.
  induction 1 as [|st l Hst _ IH]; cbn [gen_list list_ks]; [apply lb_quiet, quiet_nop|]. rewrite app_length. now apply lb_seq.
Qed.
Lemma lb_block l : Forall (fun st => lb (List.length (stmt_ks st)) (gen_stmt slot x st)) l -> lb (List.length (list_ks l)) (gen_block slot x l).
Proof.
  intros H s c s' G. unfold gen_block in G. apply seq_inv in G as (c1 & s1 & c2 & G1 & G & ->). injection G1 as <- <-.
  apply seq_inv in G as (c3 & s3 & c4 & G3 & G & ->). apply (lb_list l H) in G3. unfold close_scope in G. destruct (g_scopes s3); [discriminate|].
  injection G as <- <-. exact G3.
Qed.
Lemma lb_branches ex bs : Forall (fun b => Forall (fun st => lb (List.length (stmt_ks st)) (gen_stmt slot x st)) (snd b)) bs ->
  lb (List.length (branches_ks bs)) (gen_branches slot x ex bs).
Proof.
  induction 1 as [|[[c|] b] bs Hb _ IH]; cbn [gen_branches branches_ks snd] in *; [apply lb_quiet, quiet_nop| |].
  - rewrite !app_length. cbn [List.length]. apply lb_seq; [apply lb_expr|].
    apply (lb_seq (S (List.length (list_ks b)))); [|exact IH]. apply lb_new. intros l.
    repeat (apply lb_skip; [lb_tac|]). apply lb_skipr; [now apply lb_block|]. repeat (apply lb_skip; [lb_tac|]). lb_tac.
  - rewrite app_length. apply lb_seq; [now apply lb_block|exact IH].
Qed.
Lemma lb_assign das l e : lb (List.length (expr_ks 0 e ++ expr_ks 0 l)) (gen_assign slot das l e).
Proof.
  rewrite app_length. unfold gen_assign. apply lb_seq; [apply lb_expr|]. apply lb_skip; [lb_tac|]. apply lb_skipr; [apply lb_expr|].
  repeat (apply lb_skip; [lb_tac|]). destruct das as [[y t]|]; lb_tac.
Qed.
Lemma lb_stmt st : lb (List.length (stmt_ks st)) (gen_stmt slot x st).
Proof.
  induction st using stmt_ind'.
  - cbn [gen_stmt]. unfold gen_return. apply lb_skipr; [destruct e; [apply lb_expr|lb_tac]|lb_tac].
  - rewrite gen_stmt_if. change (stmt_ks (SIf bs)) with (mark 0 false :: branches_ks bs). apply lb_new. intros l. apply lb_skipr; [now apply lb_branches|lb_tac].
  - cbn [gen_stmt stmt_ks]. rewrite <- (app_nil_r (expr_ks 0 e)). apply (lb_assign (Some (x0, t)) (EVar t x0)).
  - apply lb_assign.
  - rewrite gen_stmt_while. change (stmt_ks (SWhile c b)) with (mark 0 false :: mark 0 false :: expr_ks 0 c ++ list_ks b). cbn [List.length].
    apply lb_new. intros l1. apply lb_new. intros l2. rewrite app_length. apply lb_skip; [lb_tac|]. apply lb_seq; [apply lb_expr|].
    repeat (apply lb_skip; [lb_tac|]). apply lb_skipr; [now apply lb_block|]. repeat (apply lb_skip; [lb_tac|]). lb_tac.
  - rewrite gen_stmt_block. now apply lb_block.
  - apply lb_expr.
Qed.

Definition stmt_claim (st : stmt) : Prop := forall s c s',
  gen_stmt slot x st s = Some (c, s') -> sound_stmt takes gives prog V st -> g_reg s = [] -> slice (g_lab s) (stmt_ks st) ->
  tr (left false) c (stmt_sites st) (left false).
Lemma tr_list l : Forall stmt_claim l -> forall s c s', gen_list slot x l s = Some (c, s') -> sound_list takes gives prog V l -> g_reg s = [] ->
  slice (g_lab s) (list_ks l) -> tr (left false) c (list_sites l) (left false).
Proof.
  induction 1 as [|st l Hst _ IH]; intros s c s' H Hs Hr Hl; cbn [gen_list] in H.
  - ginv H. apply tr_nil, incl_refl.
  - apply seq_inv in H as (c1 & s1 & c2 & H1 & H & ->). cbn [sound_list list_ks list_sites] in *. destruct Hs as [S1 S2]. apply slice_app in Hl as [Hl1 Hl2].
    pose proof (gen_stmt_eff _ _ _ _ _ _ H1) as (_ & E & _). pose proof (lb_stmt _ _ _ _ H1) as L.
    apply tr_seq with (left false); [eapply Hst; eauto|]. eapply IH; eauto; [congruence|]. now rewrite L.
Qed.
Lemma tr_block l : Forall stmt_claim l -> forall s c s', gen_block slot x l s = Some (c, s') -> sound_list takes gives prog V l -> g_reg s = [] ->
  slice (g_lab s) (list_ks l) -> tr (left false) c (list_sites l) (left false).
Proof. intros Hl s c s' H Hs Hr Hsl. apply gen_block_inv in H as (s1 & H1 & _). eapply tr_list; eauto. Qed.
Lemma left_weaken v : incl (left false) (left v).
Proof. intros r Hr. destruct v; cbn in Hr |- *; tauto. Qed.
Lemma tr_expr_true e ta s c s' : gen_expr slot e ta s = Some (c, s') -> yields e = true -> sound takes gives prog e -> g_reg s = [] ->
  slice (g_lab s) (expr_ks 0 e) -> tr (left false) c (expr_sites e) (left true).
Proof. intros H Y. rewrite <- Y. exact (tr_expr0 slot e ta s c s' H). Qed.
Lemma mark0 p n : A n = mark 0 false -> need (LGen p n) = left false /\ lval (LGen p n) = V.
Proof. intros E. cbn. rewrite E. split; reflexivity. Qed.

Lemma tr_branches ex bs : need ex = left false -> lval ex = V -> Forall (fun b => Forall stmt_claim (snd b)) bs ->
  forall s c s', gen_branches slot x ex bs s = Some (c, s') -> sound_branches takes gives prog V bs -> g_reg s = [] ->
  slice (g_lab s) (branches_ks bs) -> tr (left false) c (branches_sites bs) (left false).
Proof.
  intros Nex Vex. induction 1 as [|[[c|] b] bs Hb _ IH]; intros s c0 s' H Hs Hr Hl; cbn [gen_branches snd] in *.
  - ginv H. apply tr_nil, incl_refl.
  - cbn [branches_ks branches_sites sound_branches] in *. destruct Hs as ([Yc Sc] & Sb & Ss).
    apply seq_inv in H as (c1 & s1 & c2 & H1 & H & ->). apply seq_inv in H as (c3 & s3 & c4 & H3 & H & ->). apply new_label_inv in H3 as (c3' & -> & H3).
    apply slice_app in Hl as [Hl1 Hl]. apply slice_cons in Hl as [A1 Hl]. apply slice_app in Hl as [Hl2 Hl3].
    pose proof (gen_expr_eff _ _ _ _ _ _ H1) as (_ & E1 & _). pose proof (lb_expr slot c false 0 _ _ _ H1) as L1.
    rewrite <- L1 in *. destruct (mark0 PElse _ A1) as [Nn Vn].
    apply seq_inv in H3 as (d1 & t1 & d2 & G1 & H3 & ->). ginv1 G1. apply seq_inv in H3 as (d3 & t3 & d4 & G2 & H3 & ->). ginv1 G2.
    apply seq_inv in H3 as (d5 & t5 & d6 & G3 & H3 & ->). ginv1 H3. subst.
    pose proof (gen_block_eff' _ _ _ _ _ _ G3) as (_ & E3 & _).
    assert (L3 : g_lab t5 = g_lab (set_lab S s1) + List.length (list_ks b)).
    { eapply (lb_block b); [|exact G3]. apply Forall_forall. intros. apply lb_stmt. }
    cbn [g_lab set_lab g_reg] in *.
    apply tr_seq with (left true); [eapply tr_expr_true; eauto|].
    match goal with |- tr _ ((EFlush :: ?e1 ++ ?e2 ++ ?e3 ++ ?e4) ++ ?e5) _ _ =>
      replace ((EFlush :: e1 ++ e2 ++ e3 ++ e4) ++ e5) with ((EFlush :: e1) ++ e2 ++ e3 ++ e4 ++ e5) by (cbn; now rewrite <- ?app_assoc) end.
    apply tr_then with (left false); [apply tr_code; reflexivity|].
    apply tr_then with (left false); [apply tr_branch; [auto|rewrite Nn; apply incl_refl|congruence]|].
    apply tr_seq with (left false).
    { eapply (tr_block b Hb); [exact G3|exact Sb|cbn; congruence|exact Hl2]. }
    apply tr_then with (left false).
    { apply (tr_then (left false) [EIns jmp [OLab ex]] (left false)); [apply tr_jmp; [rewrite Nex; apply incl_refl|exact Vex]|].
      rewrite <- Nn. apply tr_label; [rewrite Nn; apply incl_refl|exact Vn]. }
    eapply IH; [exact H|exact Ss|congruence|]. rewrite L3. exact Hl3.
  - cbn [branches_ks branches_sites sound_branches app] in *. destruct Hs as (_ & Sb & Ss).
    apply seq_inv in H as (c1 & s1 & c2 & H1 & H & ->). apply slice_app in Hl as [Hl1 Hl2].
    pose proof (gen_block_eff' _ _ _ _ _ _ H1) as (_ & E1 & _).
    assert (L1 : g_lab s1 = g_lab s + List.length (list_ks b)).
    { eapply (lb_block b); [|exact H1]. apply Forall_forall. intros. apply lb_stmt. }
    apply tr_seq with (left false); [eapply (tr_block b Hb); eauto|]. eapply IH; eauto; [congruence|]. now rewrite L1.
Qed.
Lemma tr_assign das l e s c s' : gen_assign slot das l e s = Some (c, s') ->
  yields l = true -> sound takes gives prog l -> yields e = true -> sound takes gives prog e -> g_reg s = [] ->
  slice (g_lab s) (expr_ks 0 e ++ expr_ks 0 l) -> tr (left false) c (expr_sites e ++ expr_sites l) (left false).
Proof.
  intros H Yl Sl Ye Se Hr Hs. unfold gen_assign in H. apply seq_inv in H as (c1 & s1 & c2 & H1 & H & ->).
  apply seq_inv in H as (c3 & s3 & c4 & H3 & H & ->). ginv H3. apply seq_inv in H as (c5 & s5 & c6 & H5 & H & ->).
  apply seq_inv in H as (c7 & s7 & c8 & H7 & H & ->). ginv H7. apply seq_inv in H as (c9 & s9 & c10 & H9 & H & ->). ginv H9.
  assert (E : c10 = []) by (destruct das as [[y t]|]; [now apply add_root_inv in H|now ginv H]). subst c10. 
  pose proof (gen_expr_eff _ _ _ _ _ _ H1) as (_ & E1 & _). pose proof (lb_expr slot e false 0 _ _ _ H1) as L1. apply slice_app in Hs as [Hs1 Hs2].
  apply tr_seq with (left true); [eapply tr_expr_true; eauto|]. apply tr_then with (left false); [apply tr_code; reflexivity|].
  apply tr_last with (left true); [eapply tr_expr_true; eauto; cbn; [congruence|now rewrite L1]|]. apply tr_code. reflexivity.
Qed.
Lemma tr_return e s c s' : gen_return slot x e s = Some (c, s') -> sound_stmt takes gives prog V (SReturn e) -> g_reg s = [] ->
  slice (g_lab s) (stmt_ks (SReturn e)) -> forall post, tr (left false) c (stmt_sites (SReturn e)) post.
Proof.
  intros H Hs Hr Hl post. unfold gen_return in H. apply seq_inv in H as (c1 & s1 & c2 & H1 & H & ->). destruct e as [e|].
  - destruct Hs as [Se Sv]. cbn [stmt_sites]. apply tr_last with (left (yields e)); [eapply tr_expr0; eauto|].
    apply tr_weaken with (p := left V) (q := post); [eapply tr_exit; eauto| |apply incl_refl].
    destruct V; [now rewrite Sv|apply left_weaken].
  - ginv H1. cbn in Hs. cbn [stmt_sites app]. apply tr_weaken with (p := left V) (q := post); [eapply tr_exit; eauto|rewrite Hs; apply incl_refl|apply incl_refl].
Qed.
Lemma tr_stmt st : stmt_claim st.
Proof.
  induction st using stmt_ind'; intros s0 c0 s0' H0 Hs Hr Hl.
  - eapply tr_return; eauto.
  - rewrite gen_stmt_if in H0. change (slice (g_lab s0) (mark 0 false :: branches_ks bs)) in Hl. apply slice_cons in Hl as [A1 Hl].
    apply new_label_inv in H0 as (c1 & -> & H0). apply seq_inv in H0 as (c2 & s2 & c3 & H2 & H0 & ->). ginv1 H0. subst.
    destruct (mark0 PIfEnd _ A1) as [Nn Vn]. apply (tr_then (left false) [EFlush] (left false)); [apply tr_code; reflexivity|].
    apply tr_last with (left false).
    + change (stmt_sites (SIf bs)) with (branches_sites bs). eapply tr_branches; eauto.
    + rewrite <- Nn. apply tr_label; [rewrite Nn; apply incl_refl|exact Vn].
  - cbn [gen_stmt] in H0. destruct Hs as [Y S]. cbn [stmt_sites]. rewrite <- (app_nil_r (expr_sites e)).
    apply (tr_assign _ _ _ _ _ _ H0); auto; try exact I. cbn [expr_ks]. now rewrite app_nil_r.
  - destruct Hs as (Yl & Sl & Ye & Se). eapply tr_assign; eauto.
  - rewrite gen_stmt_while in H0. change (slice (g_lab s0) (mark 0 false :: mark 0 false :: expr_ks 0 c ++ list_ks b)) in Hl.
    apply slice_cons in Hl as [A1 Hl]. apply slice_cons in Hl as [A2 Hl]. apply slice_app in Hl as [Hl1 Hl2].
    destruct Hs as (Yc & Sc & Sb). change (sound_list takes gives prog V b) in Sb. change (stmt_sites (SWhile c b)) with (expr_sites c ++ list_sites b).
    apply new_label_inv in H0 as (c1 & -> & H0). apply new_label_inv in H0 as (c2 & -> & H0). cbn [g_lab set_lab] in H0.
    destruct (mark0 PWhileEnd _ A1) as [N1 V1]. destruct (mark0 PWhileStart _ A2) as [N2 V2].
    apply seq_inv in H0 as (d1 & t1 & d2 & G1 & H0 & ->). ginv1 G1. apply seq_inv in H0 as (d3 & t3 & d4 & G2 & H0 & ->).
    apply seq_inv in H0 as (d5 & t5 & d6 & G3 & H0 & ->). ginv1 G3. apply seq_inv in H0 as (d7 & t7 & d8 & G4 & H0 & ->). ginv1 G4.
    apply seq_inv in H0 as (d9 & t9 & d10 & G5 & H0 & ->). ginv1 H0. subst.
    pose proof (gen_expr_eff _ _ _ _ _ _ G2) as (_ & E1 & _). pose proof (lb_expr slot c false 0 _ _ _ G2) as L1. cbn [g_lab set_lab g_reg] in *.
    apply (tr_then (left false) [EFlush; EFlush] (left false)); [apply tr_code; reflexivity|].
    apply tr_then with (left false); [rewrite <- N2; apply tr_label; [apply incl_refl|exact V2]|].
    apply tr_seq with (left true); [eapply tr_expr_true; eauto|]. apply tr_then with (left false); [apply tr_code; reflexivity|].
    apply tr_then with (left false); [apply tr_branch; [auto|rewrite N1; apply incl_refl|congruence]|].
    apply tr_last with (left false).
    { eapply (tr_block b H); [exact G5|exact Sb|congruence|]. now rewrite L1. }
    apply tr_then with (left false); [apply tr_jmp; [rewrite N2; apply incl_refl|exact V2]|].
    rewrite <- N1. apply tr_label; [rewrite N1; apply incl_refl|exact V1].
  - rewrite gen_stmt_block in H0. eapply (tr_block b H); eauto.
  - cbn [gen_stmt] in H0. apply tr_weaken with (p := left false) (q := left (yields e)); [eapply tr_expr0; eauto|apply incl_refl|apply left_weaken].
Qed.
End Stmts.
End Value.

(* ------------------------------------------------------------------ whole functions *)

(** Between functions: nothing goes on here. *)
Definition dead (x : fs) : Prop := (forall r, f_clean x r = true) /\ f_reach x = false.
Definition part (c : list event) (st : list site) : Prop := forall x rest, dead x -> f_sites x = st ++ rest ->
  checks x c /\ dead (fold_left next c x) /\ f_sites (fold_left next c x) = rest.
Lemma part_seq c1 s1 c2 s2 : part c1 s1 -> part c2 s2 -> part (c1 ++ c2) (s1 ++ s2).
Proof.
  intros H1 H2 x rest D S. rewrite <- app_assoc in S. destruct (H1 x _ D S) as (K1 & D1 & S1). destruct (H2 _ _ D1 S1) as (K2 & D2 & S2).
  rewrite fold_left_app. split; [now apply checks_app|auto].
Qed.
Lemma part_then c1 c2 st : part c1 [] -> part c2 st -> part (c1 ++ c2) st.
Proof. apply (part_seq c1 []). Qed.
Lemma part_last c1 c2 st : part c1 st -> part c2 [] -> part (c1 ++ c2) st.
Proof. intros H1 H2. rewrite <- (app_nil_r st). now apply part_seq. Qed.
Lemma part_nil : part [] [].
Proof. intros x rest D S. split; [exact I|auto]. Qed.

(** Data. *)
Definition data_label (l : label) : bool := match l with LNoGc | LMap _ | LLit _ | LSym _ => true | _ => false end.
Fixpoint data_flow (alive : bool) (c : list event) : option bool :=
  match c with
  | [] => Some alive
  | ELabel l :: t => if data_label l then data_flow true t else None
  | (EAddr _ | EFlush) :: t => data_flow alive t
  | (EWord _ | EAscii _ | EData) :: t => data_flow false t
  | _ => None
  end.
Lemma data_flow_app a c1 c2 : data_flow a (c1 ++ c2) = match data_flow a c1 with Some b => data_flow b c2 | None => None end.
Proof. revert a. induction c1 as [|e c1 IH]; intros a; [reflexivity|]. destruct e; cbn; try reflexivity; try apply IH. destruct (data_label l); auto. Qed.
Definition data_inv (a : bool) (x : fs) : Prop := if a then f_val x = false else dead x.
Lemma data_ok c : forall a b x, data_flow a c = Some b -> data_inv a x ->
  checks x c /\ data_inv b (fold_left next c x) /\ f_sites (fold_left next c x) = f_sites x.
Proof.
  induction c as [|e c IH]; intros a b x H K; [injection H as ->; cbn; auto|].
  assert (Kl : forall a', data_flow a' c = Some b -> fine x e -> data_inv a' (next x e) -> f_sites (next x e) = f_sites x ->
    checks x (e :: c) /\ data_inv b (fold_left next (e :: c) x) /\ f_sites (fold_left next (e :: c) x) = f_sites x).
  { intros a' H' F K' S'. destruct (IH a' b (next x e) H' K') as (C & K2 & S2). split; [split; assumption|]. cbn [fold_left]. split; [exact K2|congruence]. }
  destruct e as [i ops|l|f|l| |w|w|]; cbn [data_flow] in H; try discriminate.
  - destruct (data_label l) eqn:Dl; [|discriminate]. apply (Kl true H); [|destruct l; try discriminate; reflexivity|reflexivity].
    assert (Nl : need l = []) by (destruct l; try discriminate; reflexivity).
    split; [rewrite Nl; intros r []|]. intros Hr Hv. destruct a; cbn in K; [congruence|]. destruct K as [_ K]. congruence.
  - apply (Kl a H I); [|reflexivity]. destruct a; exact K.
  - apply (Kl a H I); [|reflexivity]. destruct a; exact K.
  - apply (Kl false H I); [|reflexivity]. split; reflexivity.
  - apply (Kl false H I); [|reflexivity]. split; reflexivity.
  - apply (Kl false H I); [|reflexivity]. split; reflexivity.
Qed.
Lemma part_data c : data_flow false c = Some false -> part c [].
Proof. intros H x rest D S. destruct (data_ok c false false x H D) as (K1 & K2 & K3). split; [exact K1|]. split; [exact K2|]. now rewrite K3. Qed.
Lemma map_data l offs : data_flow false (gc_map_data l offs) = if data_label l then Some false else None.
Proof.
  unfold gc_map_data. cbn [data_flow]. destruct (data_label l); [|reflexivity]. unfold tagged_word at 1. cbn [data_flow].
  induction offs as [|o offs IH]; [reflexivity|]. exact IH.
Qed.
Lemma maps_data l : data_flow false (flat_map (fun m : nat * list (Z * ty) => gc_map_data (LMap (fst m)) (map (fun r => (fst r / 8)%Z) (snd m))) l) = Some false.
Proof. induction l as [|m l IH]; [reflexivity|]. cbn [flat_map]. rewrite data_flow_app, map_data. exact IH. Qed.

(** A function: its name, code, and what ends it. *)
Lemma part_fn f n v c st post e : program_sig prog f = (n, v) -> tr v (entry n) c st post ->
  (forall x, has (f_clean x) post -> f_val x = v -> checks x e /\ dead (fold_left next e x) /\ f_sites (fold_left next e x) = f_sites x) ->
  part (EFn f :: c ++ e) st.
Proof.
  intros Hf T E x rest [D1 D2] S. cbn [fold_left]. rewrite fold_left_app.
  destruct (T (next x (EFn f)) rest) as (K1 & A1 & V1 & S1).
  - cbn. rewrite Hf. intros r Hr. now apply in_list_has.
  - cbn. now rewrite Hf.
  - exact S.
  - destruct (E _ A1 V1) as (K2 & D' & S2). split; [|split; [exact D'|congruence]].
    split; [|now apply checks_app]. split; [intros r _; apply D1|congruence].
Qed.
(** A function that ends with genFnExit. *)
Lemma exit_ends v ext s c s' : gen_exit ext s = Some (c, s') -> forall x, has (f_clean x) (left v) -> f_val x = v ->
  checks x c /\ dead (fold_left next c x) /\ f_sites (fold_left next c x) = f_sites x.
Proof.
  intros H x Hx Hv. destruct (tr_exit v ext s c s' [] H x (f_sites x) Hx Hv eq_refl) as (K & _ & _ & S). split; [exact K|]. split; [|exact S].
  apply gen_exit_inv in H as [_ ->]. rewrite !fold_left_app. destruct ext; (split; [intros r|]; reflexivity).
Qed.
Lemma maps_end s c s' : gen_maps s = Some (c, s') -> forall x : fs,
  checks x c /\ dead (fold_left next c x) /\ f_sites (fold_left next c x) = f_sites x.
Proof.
  intros H x. injection H as <- _. set (m := flat_map _ _). cbn [checks fold_left].
  destruct (data_ok m false false (next (next x EFlush) EData) (maps_data _)) as (K & D & S); [split; reflexivity|].
  split; [split; [exact I|split; [exact I|exact K]]|]. split; [exact D|exact S].
Qed.

Lemma lookup_in l f g : NoDup (map fst l) -> In (f, g) l -> lookup l f = Some g.
Proof.
  induction l as [|[h y] l IH]; intros N H; [destruct H|]. cbn in *. inversion N; subst. destruct H as [H|H].
  - injection H as -> ->. now rewrite String.eqb_refl.
  - destruct (String.eqb f h) eqn:E; [|auto]. apply String.eqb_eq in E. subst. exfalso. apply H2. now apply (in_map fst) in H.
Qed.
Hypothesis Hnames : NoDup (map fst (program_sigs prog)).
Lemma sig_fun f : In f prog -> program_sig prog (f_name f) = (List.length (f_params f), negb (kind_eqb (f_ret f) TNothing)).
Proof.
  intros H. unfold program_sig. erewrite lookup_in; [reflexivity|exact Hnames|]. apply in_app_iff. left. now apply (in_map fun_sig) in H.
Qed.
Lemma sig_routine f g : In (f, g) routine_sigs -> program_sig prog f = g.
Proof. intros H. unfold program_sig. erewrite lookup_in; [reflexivity|exact Hnames|]. apply in_app_iff. now right. Qed.

Lemma tr_params v ps : forall i s c s', gen_params i ps s = Some (c, s') ->
  tr v (left false ++ firstn (List.length ps) (skipn i arg_regs)) c [] (left false).
Proof.
  induction ps as [|[y t] ps IH]; intros i s c s' H; cbn [gen_params] in H.
  - ginv H. cbn [List.length firstn]. rewrite app_nil_r. apply tr_nil, incl_refl.
  - apply seq_inv in H as (c1 & s1 & c2 & H1 & H & ->). apply with_reg_inv in H1 as (r & N & H1). ginv1 H1. subst.
    apply seq_inv in H as (c3 & s3 & c4 & H3 & H & ->). apply add_root_inv in H3 as [-> _]. cbn [app].
    apply tr_then with (c1 := [_]) (q := left false ++ firstn (List.length ps) (skipn (S i) arg_regs)); [|eapply IH; exact H].
    cbn [List.length]. do 6 (destruct i as [|i]; [injection N as <-; cbn [skipn arg_regs firstn];
      match goal with |- tr _ (_ ++ _ :: firstn ?m ?l) ?c [] _ => apply (firstn_cases l (fun q => tr v (left false ++ _ :: q) c [] (left false ++ q))) end;
      intros k Hk; cbn in Hk; repeat (destruct Hk as [<-|Hk]; [apply tr_code; reflexivity|]); destruct Hk|]).
    destruct i; discriminate.
Qed.
Lemma lb_params ps : forall i, lb 0 (gen_params i ps).
Proof.
  induction ps as [|[y t] ps IH]; intros i; cbn [gen_params]; [apply lb_quiet, quiet_nop|].
  apply lb_skip; [apply lb_quiet; quiet_tac|]. apply lb_skip; [apply lb_quiet; quiet_tac|apply IH].
Qed.
Lemma params_reg ps : forall i s c s', gen_params i ps s = Some (c, s') -> g_reg s' = g_reg s.
Proof.
  induction ps as [|[y t] ps IH]; intros i s c s' H; cbn [gen_params] in H; [now ginv H|].
  apply seq_inv in H as (c1 & s1 & c2 & H1 & H & ->). apply with_reg_inv in H1 as (r & N & H1). ginv1 H1. subst.
  apply seq_inv in H as (c3 & s3 & c4 & H3 & H & ->). apply add_root_inv in H3 as (_ & _ & E & _). apply IH in H. congruence.
Qed.
Lemma tr_fields v n : forall i off s c s', gen_fields i off n s = Some (c, s') -> tr v (left true) c [] (left true).
Proof.
  induction n as [|n IH]; intros i off s c s' H; cbn [gen_fields] in H; [ginv H; apply tr_nil, incl_refl|].
  apply seq_inv in H as (c1 & s1 & c2 & H1 & H & ->). ginv1 H1. apply seq_inv in H as (c3 & s3 & c4 & H3 & H & ->). ginv1 H3. subst.
  apply tr_then with (left true ++ [rbx]); [apply tr_code; reflexivity|]. apply tr_then with (left true); [apply tr_code; reflexivity|]. eapply IH; exact H.
Qed.
Lemma lb_fields n : forall i off, lb 0 (gen_fields i off n).
Proof.
  induction n as [|n IH]; intros i off; cbn [gen_fields]; [apply lb_quiet, quiet_nop|].
  apply lb_skip; [apply lb_quiet; quiet_tac|]. apply lb_skip; [apply lb_quiet; quiet_tac|apply IH].
Qed.
Lemma lb_constructor alloc n tag id descr : lb 0 (gen_constructor alloc n tag id descr).
Proof.
  unfold gen_constructor. apply lb_skip; [apply lb_ins|]. apply lb_skip; [apply lb_quiet; quiet_tac|]. apply lb_skip; [apply lb_ins|].
  apply lb_skip; [apply lb_ins|]. apply lb_skip; [apply lb_gc|]. apply lb_skip; [|apply lb_quiet; quiet_tac].
  destruct tag; [apply lb_skip; [apply lb_quiet; quiet_tac|]|]; apply lb_fields.
Qed.
Lemma tr_constructor v alloc n tag id descr s c s' : gen_constructor alloc n tag id descr s = Some (c, s') ->
  callable takes gives prog alloc (Site 3 true) false -> forall post, tr v (left false) c [Site 3 true] post.
Proof.
  intros H Hc post. unfold gen_constructor in H. apply seq_inv in H as (c1 & s1 & c2 & H1 & H & ->). ginv1 H1.
  apply seq_inv in H as (c3 & s3 & c4 & H3 & H & ->). ginv1 H3. apply seq_inv in H as (c5 & s5 & c6 & H5 & H & ->). ginv1 H5.
  apply seq_inv in H as (c7 & s7 & c8 & H7 & H & ->). ginv1 H7. apply seq_inv in H as (c9 & s9 & c10 & H9 & H & ->).
  apply gc_map_inv in H9 as [[l ->] _]. apply seq_inv in H as (d1 & t1 & d2 & G1 & H & ->). subst.
  eapply (tr_then v (left false) [_; _; _; _] (left false ++ [rdi; rsi; rdx])); [apply tr_code; reflexivity|].
  apply (tr_seq v _ [EIns call [OFn alloc]] [Site 3 true] (left true) _ []); [exact (tr_call_name v _ alloc (Site 3 true) false Hc (incl_refl _))|].
  apply tr_then with (left true); [apply tr_code; reflexivity|].
  apply tr_then with (left true).
  - destruct tag; [|eapply tr_fields; exact G1]. apply seq_inv in G1 as (e1 & u1 & e2 & F1 & G1 & ->). ginv1 F1. subst.
    apply tr_then with (left true); [apply tr_code; reflexivity|eapply tr_fields; exact G1].
  - apply tr_weaken with (p := left v) (q := post); [eapply tr_exit; exact H| |apply incl_refl].
    destruct v; [apply incl_refl|apply left_weaken].
Qed.

(** What is known at the labels of a function. *)
Definition fn_val (f : fundef) : bool := negb (kind_eqb (f_ret f) TNothing).
Definition fn_ks (f : fundef) : list (list reg * bool) :=
  match f_body f with
  | BBlock l => list_ks (fn_val f) l
  | BExpr e => expr_ks (fn_val f) 0 e
  | BCons _ _ _ => []
  end.
Lemma part_fundef alloc f s c s' : In f prog -> sound_fn takes gives prog alloc f -> gen_fn alloc f s = Some (c, s') ->
  slice (g_lab s) (fn_ks f) -> part c (body_sites (f_body f)) /\ g_lab s' = g_lab s + List.length (fn_ks f).
Proof.
  intros Hin Hs H Hl. unfold gen_fn in H. destruct (fn_slots f) as [temps slots].
  apply seq_inv in H as (c1 & s1 & c2 & H1 & H & ->). unfold reset_fn in H1. ginv1 H1. apply seq_inv in H as (c3 & s3 & c4 & H3 & H & ->).
  unfold gen_entry in H3. ginv1 H3. apply seq_inv in H as (c5 & s5 & c6 & H5 & H & ->). ginv1 H5.
  apply seq_inv in H as (c7 & s7 & c8 & H7 & H & ->). apply seq_inv in H as (c9 & s9 & c10 & H9 & H & ->). subst.
  pose proof (maps_end _ _ _ H) as He. assert (L' : g_lab s' = g_lab s9) by (injection H as _ <-; reflexivity).
  pose proof (lb_params _ _ _ _ _ H7) as Lp. pose proof (params_reg _ _ _ _ _ H7) as Rp. cbn in Lp, Rp. rewrite Nat.add_0_r in Lp.
  assert (B : tr (fn_val f) (left false) c9 (body_sites (f_body f)) [] /\ g_lab s9 = g_lab s + List.length (fn_ks f)).
  { unfold sound_fn in Hs. unfold fn_ks in *. fold (fn_val f) in Hs. destruct (f_body f) as [l|e|tag id descr]; cbn [body_sites].
    - apply seq_inv in H9 as (d1 & t1 & d2 & G1 & H9 & ->). split.
      + apply tr_last with (left false).
        * eapply (tr_block (fn_val f) _ _ l); [apply Forall_forall; intros; apply tr_stmt|exact G1|exact Hs|exact Rp|now rewrite Lp].
        * destruct (kind_eqb (f_ret f) TNothing && negb (return_last l)) eqn:E.
          -- apply andb_true_iff in E as [E _]. apply tr_weaken with (p := left (fn_val f)) (q := []); [eapply tr_exit; exact H9| |apply incl_refl].
             unfold fn_val. rewrite E. apply incl_refl.
          -- ginv H9. apply tr_nil. intros r [].
      + assert (L1 : g_lab t1 = g_lab s7 + List.length (list_ks (fn_val f) l)).
        { eapply (lb_block (fn_val f) _ _ l); [|exact G1]. apply Forall_forall. intros. apply lb_stmt. }
        assert (L2 : g_lab s9 = g_lab t1 + 0).
        { destruct (_ && _) in H9; [eapply (lb_quiet (gen_exit _)); [apply quiet_exit|exact H9]|ginv H9; lia]. }
        lia.
    - split.
      + apply (tr_return (fn_val f) _ _ (Some e) _ _ _ H9); [exact Hs|exact Rp|cbn [stmt_ks]; now rewrite Lp].
      + rewrite <- Lp. apply (lb_stmt (fn_val f) (get_slot slots) (f_extret f) (SReturn (Some e)) _ _ _ H9).
    - split; [eapply tr_constructor; [exact H9|exact Hs]|]. apply lb_constructor in H9. cbn. lia. }
  destruct B as [B L9]. split; [|congruence]. cbn [app].
  replace (c7 ++ c9 ++ c10) with ((c7 ++ c9) ++ c10) by now rewrite app_assoc.
  apply (part_fn (f_name f) (List.length (f_params f)) (fn_val f) (EIns enter _ :: c7 ++ c9) _ []); [now apply sig_fun| |].
  - apply (tr_then _ (entry (List.length (f_params f))) [EIns enter _] (left false ++ firstn (List.length (f_params f)) arg_regs)).
    + apply (tr_code_k (fn_val f) (List.length (f_params f)) (left false) _ (left false)). reflexivity.
    + apply tr_then with (left false); [apply (tr_params _ _ 0 _ _ _ H7)|exact B].
  - intros x _ _. apply He.
Qed.
Lemma part_fns alloc l : incl l prog -> Forall (sound_fn takes gives prog alloc) l -> forall s c s', gen_fns alloc l s = Some (c, s') ->
  slice (g_lab s) (flat_map fn_ks l) -> part c (flat_map (fun f => body_sites (f_body f)) l).
Proof.
  intros Hin Hs. induction Hs as [|f l Hf _ IH]; intros s c s' H Hl; cbn [gen_fns] in H.
  - ginv H. apply part_nil.
  - apply seq_inv in H as (c1 & s1 & c2 & H1 & H & ->). cbn [flat_map] in *. apply slice_app in Hl as [Hl1 Hl2].
    destruct (part_fundef alloc f s c1 s1 (Hin f (or_introl eq_refl)) Hf H1 Hl1) as [P1 L1].
    apply part_seq; [exact P1|]. eapply IH; [intros g Hg; apply Hin; now right|exact H|now rewrite L1].
Qed.

(* -------------------------------------------------------------------- the routines *)

Definition exit_code : list event := [EIns leave []; EIns ret []; EFlush].
Lemma part_routine f n v code : In (f, (n, v)) routine_sigs -> okc (entry n) code (left v) = true -> part (EFn f :: code ++ exit_code) [].
Proof.
  intros Hf Ho. apply (part_fn f n v code [] (left v) exit_code); [now apply sig_routine|now apply tr_code|].
  apply (exit_ends v true start exit_code start). reflexivity.
Qed.
Lemma part_flush : part [EFlush] [].
Proof. apply part_data. reflexivity. Qed.
Lemma part_entrypoint entry_fn s c s' : gen_asm_entrypoint entry_fn s = Some (c, s') -> callable takes gives prog entry_fn (Site 3 false) false ->
  part c [Site 3 false].
Proof.
  intros H Hc. unfold gen_asm_entrypoint in H. apply seq_inv in H as (c1 & s1 & c2 & H1 & H & ->). unfold gen_entry in H1. ginv1 H1.
  apply seq_inv in H as (c3 & s3 & c4 & H3 & H & ->). ginv1 H3. apply seq_inv in H as (c5 & s5 & c6 & H5 & H & ->). ginv1 H5. subst.
  apply (part_fn "clara_asm_entrypoint" 3 false [_; _; _; EIns call [OFn entry_fn]] _ (left false)).
  - apply sig_routine. cbn. auto 20.
  - apply (tr_then false (entry 3) [_; _; _] (entry 3)); [apply tr_code; reflexivity|].
    apply (tr_call_name false _ entry_fn (Site 3 false) false Hc). cbn. apply incl_refl.
  - eapply exit_ends. exact H.
Qed.
Lemma part_ioob ioob s c s' : gen_ioob ioob s = Some (c, s') -> callable takes gives prog ioob (Site 2 false) false ->
  part (c ++ [EFlush] ++ [EFn "getFramePointer"; EIns movq [OReg rbp; OReg rax]; EIns ret []; EFlush])%list [Site 2 false].
Proof.
  intros H Hc. unfold gen_ioob in H. ginv1 H. subst. cbn [app]. intros x rest [D1 D2] S.
  set (x1 := next (next x EData) (ELabel LIoob)).
  assert (T : tr true (need LIoob) ([EIns andq [OImm (-16); OReg rsp]; EIns movq [OReg rbx; OReg rdi]; EIns shlq [OImm 1; OReg rdi]; EIns orq [OImm 1; OReg rdi];
      EIns movq [mderef rax; OReg rsi]] ++ [EIns call [OFn ioob]] ++ [EFlush]) [Site 2 false] (left false)).
  { apply tr_then with (left false ++ [rdi; rsi]); [apply tr_code; reflexivity|].
    apply tr_last with (left false); [apply (tr_call_name true _ ioob (Site 2 false) false Hc); cbn; apply incl_refl|apply tr_code; reflexivity]. }
  destruct (T x1 rest) as (K1 & A1 & V1 & S1); [intros r Hr; now apply in_list_has|reflexivity|exact S|].
  set (c1 := _ ++ _ ++ [EFlush]) in *.
  change (checks x (([EData; ELabel LIoob] ++ c1) ++ [EFn "getFramePointer"; EIns movq [OReg rbp; OReg rax]; EIns ret []; EFlush]) /\
    dead (fold_left next (([EData; ELabel LIoob] ++ c1) ++ [EFn "getFramePointer"; EIns movq [OReg rbp; OReg rax]; EIns ret []; EFlush]) x) /\
    f_sites (fold_left next (([EData; ELabel LIoob] ++ c1) ++ [EFn "getFramePointer"; EIns movq [OReg rbp; OReg rax]; EIns ret []; EFlush]) x) = rest).
  rewrite !fold_left_app. change (fold_left next [EData; ELabel LIoob] x) with x1. set (x2 := fold_left next c1 x1) in *.
  assert (Sg : program_sig prog "getFramePointer" = (0, true)) by (apply sig_routine; cbn; auto 20).
  assert (X3 : next x2 (EFn "getFramePointer") = Fs None (in_list (entry 0)) true true (f_sites x2)) by (cbn; now rewrite Sg).
  split; [|split].
  - apply checks_app. split.
    + apply checks_app. split; [|exact K1]. split; [exact I|]. split; [|exact I]. split; [intros r _; reflexivity|discriminate].
    + rewrite fold_left_app. change (fold_left next c1 (fold_left next [EData; ELabel LIoob] x)) with x2.
      split; [|rewrite X3].
      * cbn. rewrite Sg. split; [exact A1|reflexivity].
      * split; [split; [intros r []|split; [discriminate|exact I]]|]. split; [|split; exact I].
        split; [intros r [<-|[]]; reflexivity|]. split; [discriminate|]. cbn. intros r [<-|[<-|[<-|[]]]]; reflexivity.
  - cbn [fold_left]. rewrite X3. split; [intros r|]; reflexivity.
  - cbn [fold_left]. rewrite X3. exact S1.
Qed.

(** The type table and the literals are data. *)
Lemma type_maps_data ts : forall tag et k s c s', gen_type_maps ts tag et k s = Some (c, s') ->
  (forall ls s c s', k ls s = Some (c, s') -> data_flow false c = Some false) -> data_flow false c = Some false.
Proof.
  induction ts as [|t ts IH]; intros tag et k s c s' H Hk; cbn [gen_type_maps] in H; [eapply Hk; exact H|].
  assert (Hk' : forall l, (forall ls s c s', k (l :: ls) s = Some (c, s') -> data_flow false c = Some false)) by (intros; eapply Hk; eauto).
  destruct t as [name txt fields|id name txt members|txt|txt p|txt|txt]; try (eapply IH; [exact H|apply Hk']).
  - destruct (pointer_fields fields) as [|o offs]; [eapply IH; [exact H|apply Hk']|].
    apply seq_inv in H as (c1 & s1 & c2 & H1 & H & ->). injection H1 as <- <-. rewrite data_flow_app, map_data. eapply IH; [exact H|apply Hk'].
  - destruct (nth_error members _) as [[ctag params]|]; [|discriminate]. destruct (negb _); [discriminate|].
    destruct (pointer_slots 1 params) as [|o offs]; [eapply IH; [exact H|apply Hk']|].
    apply seq_inv in H as (c1 & s1 & c2 & H1 & H & ->). injection H1 as <- <-. rewrite data_flow_app, map_data. eapply IH; [exact H|apply Hk'].
Qed.
Lemma infos_data ts : forall i roots s c s', gen_infos i ts roots s = Some (c, s') -> data_flow false c = Some false.
Proof.
  induction ts as [|t ts IH]; intros i roots s c s' H; cbn [gen_infos] in H; [now ginv H|]. destruct roots as [|r roots]; [discriminate|].
  apply seq_inv in H as (c1 & s1 & c2 & H1 & H & ->). ginv1 H1. apply seq_inv in H as (c3 & s3 & c4 & H3 & H & ->). ginv1 H3.
  apply seq_inv in H as (c5 & s5 & c6 & H5 & H & ->). apply IH in H. apply string_lit_inv in H5 as (n & c' & t1 & -> & H5 & _).
  subst. cbn [app data_flow data_label info_label]. rewrite data_flow_app.
  replace (data_flow true c') with (Some false); [exact H|]. destruct t; ginv1 H5; subst; reflexivity.
Qed.
Lemma part_table ts s c s' : gen_type_table ts s = Some (c, s') -> part c [].
Proof.
  intros H. unfold gen_type_table in H. apply seq_inv in H as (c1 & s1 & c2 & H1 & H & ->). ginv1 H1.
  apply seq_inv in H as (c3 & s3 & c4 & H3 & H & ->). apply type_maps_data in H3; [|intros ls; apply infos_data].
  apply seq_inv in H as (c5 & s5 & c6 & H5 & H & ->). apply seq_inv in H as (c7 & s7 & c8 & H7 & H & ->). ginv1 H7. subst.
  apply part_then; [apply part_data; reflexivity|]. apply part_then; [now apply part_data|].
  apply part_then.
  - apply part_data. unfold gen_info_array in H5. apply seq_inv in H5 as (d1 & t1 & d2 & G1 & H5 & ->). ginv1 G1.
    apply seq_inv in H5 as (d3 & t3 & d4 & G2 & H5 & ->). ginv1 G2. apply seq_inv in H5 as (d5 & t5 & d6 & G3 & H5 & ->). ginv1 G3.
    injection H5 as <- <-. subst. cbn [app data_flow data_label]. generalize (List.seq 0 (List.length ts)) as q.
    induction q as [|j q IH]; [reflexivity|exact IH].
  - apply part_then; [apply part_flush|]. cbn in H. injection H as <- <-.
    apply (part_routine "typeInfoTable" 0 true [_; _]); [cbn; auto 20|reflexivity].
Qed.
Lemma lits_data unq l : forall n s c s', gen_lits unq n l s = Some (c, s') -> data_flow false c = Some false.
Proof.
  induction l as [|x l IH]; intros n s c s' H; cbn [gen_lits] in H; [now ginv H|]. destruct (unq x) as [raw|]; [|discriminate].
  do 5 (let c1 := fresh "c" in let s1 := fresh "s" in let c2 := fresh "c" in let H1 := fresh "H" in
    apply seq_inv in H as (c1 & s1 & c2 & H1 & H & ->); ginv1 H1). apply IH in H. subst. exact H.
Qed.

Theorem program_checks unq alloc ioob entry_fn ts c s' : gen_program unq alloc ioob entry_fn ts prog start = Some (c, s') ->
  sound_program takes gives prog alloc ioob entry_fn -> slice 0 (flat_map fn_ks prog) ->
  checks (Fs None (fun _ => true) false false (program_sites prog)) c.
Proof.
  intros H (Hs & _ & Hi & He) Hl. assert (P : part c (program_sites prog)).
  { unfold gen_program in H. apply seq_inv in H as (c1 & s1 & c2 & H1 & H & ->). apply seq_inv in H as (c3 & s3 & c4 & H3 & H & ->).
    unfold program_sites. apply part_seq; [eapply part_fns; eauto using incl_refl|]. apply part_last.
    2:{ apply part_data. unfold gen_flush in H. apply seq_inv in H as (d1 & t1 & d2 & G1 & H & ->). ginv1 G1. apply lits_data in H. subst. exact H. }
    clear H H1 c1 c4 s' Hl. unfold gen_routines in H3.
    apply seq_inv in H3 as (r1 & t1 & k1 & R1 & H3 & ->). apply seq_inv in H3 as (f1 & u1 & l1 & F1 & H3 & ->). ginv1 F1.
    apply seq_inv in H3 as (r2 & t2 & k2 & R2 & H3 & ->). apply seq_inv in H3 as (f2 & u2 & l2 & F2 & H3 & ->). ginv1 F2.
    apply seq_inv in H3 as (r3 & t3 & k3 & R3 & H3 & ->). apply seq_inv in H3 as (f3 & u3 & l3 & F3 & H3 & ->). ginv1 F3.
    apply seq_inv in H3 as (r4 & t4 & k4 & R4 & H3 & ->). apply seq_inv in H3 as (f4 & u4 & l4 & F4 & H3 & ->). ginv1 F4.
    apply seq_inv in H3 as (r5 & t5 & k5 & R5 & H3 & ->). apply seq_inv in H3 as (f5 & u5 & l5 & F5 & H3 & ->). ginv1 F5.
    apply seq_inv in H3 as (r6 & t6 & k6 & R6 & H3 & ->). apply seq_inv in H3 as (f6 & u6 & l6 & F6 & H3 & ->). ginv1 F6.
    apply seq_inv in H3 as (r7 & t7 & k7 & R7 & H3 & ->). apply seq_inv in H3 as (f7 & u7 & l7 & F7 & H3 & ->). ginv1 F7.
    apply seq_inv in H3 as (r8 & t8 & k8 & R8 & H3 & ->). apply seq_inv in H3 as (f8 & u8 & l8 & F8 & H3 & ->). ginv1 F8.
    apply seq_inv in H3 as (r9 & t9 & k9 & R9 & H3 & ->). apply seq_inv in H3 as (f9 & u9 & l9 & F9 & H3 & ->). ginv1 F9.
    apply seq_inv in H3 as (ra & ta & ka & Ra & H3 & ->). apply seq_inv in H3 as (fa & ua & la & Fa & H3 & ->). ginv1 Fa.
    apply seq_inv in H3 as (rb & tb & kb & Rb & H3 & ->). apply seq_inv in H3 as (fb & ub & lb' & Fb & H3 & ->). ginv1 Fb.
    apply seq_inv in H3 as (rc & tc & kc & Rc & H3 & ->). ginv1 H3. subst.
    apply part_then; [cbn in R1; injection R1 as <- _; apply (part_routine "readByte" 2 true [_; _; _]); [cbn; auto 20|reflexivity]|]. apply part_then; [apply part_flush|].
    apply part_then; [cbn in R2; injection R2 as <- _; apply (part_routine "readInt" 2 true [_; _; _]); [cbn; auto 20|reflexivity]|]. apply part_then; [apply part_flush|].
    apply part_then; [cbn in R3; injection R3 as <- _; apply (part_routine "writeByte" 3 true [_; _; _; _]); [cbn; auto 20|reflexivity]|]. apply part_then; [apply part_flush|].
    apply part_then; [cbn in R4; injection R4 as <- _; apply (part_routine "writeInt" 3 true [_; _; _; _]); [cbn; auto 20|reflexivity]|]. apply part_then; [apply part_flush|].
    cbn in R6. injection R6 as <- _.
    match goal with |- part (?a ++ ?b ++ ?f ++ ?d) _ => replace (a ++ b ++ f ++ d) with ((a ++ b ++ f) ++ d) by now rewrite <- !app_assoc end.
    apply (part_seq _ [Site 2 false] _ [Site 3 false]); [eapply part_ioob; eauto|]. apply part_then; [apply part_flush|].
    apply part_then; [cbn in R7; injection R7 as <- _; apply (part_routine "unsafe" 2 true [_; _; _]); [cbn; auto 20|reflexivity]|]. apply part_then; [apply part_flush|].
    apply part_then; [cbn in R8; injection R8 as <- _; apply (part_routine "toTaggedInt" 1 true [_; _]); [cbn; auto 20|reflexivity]|]. apply part_then; [apply part_flush|].
    apply part_then; [cbn in R9; injection R9 as <- _; apply (part_routine "toUntaggedInt" 1 true [_; _; _]); [cbn; auto 20|reflexivity]|]. apply part_then; [apply part_flush|].
    apply part_last; [eapply part_entrypoint; eauto|]. apply part_then; [apply part_flush|].
    apply part_then; [cbn in Rb; injection Rb as <- _; apply part_data; reflexivity|]. apply part_then; [apply part_flush|].
    apply part_then; [eapply part_table; eauto|apply part_flush]. }
  destruct (P (Fs None (fun _ => true) false false (program_sites prog)) []) as [K _]; [split; reflexivity|cbn; now rewrite app_nil_r|exact K].
Qed.
End Gen.

(* ---------------------------------------------------------------- names and the end *)

Lemma lookup_some l f : (exists g, lookup l f = Some g) <-> In f (map fst l).
Proof.
  induction l as [|[h y] l IH]; cbn; [split; [intros [g H]; discriminate|tauto]|]. destruct (String.eqb f h) eqn:E.
  - apply String.eqb_eq in E. subst. split; eauto.
  - rewrite IH. split; [auto|]. intros [->|H]; [now rewrite String.eqb_refl in E|exact H].
Qed.
Lemma program_names prog : map fst (program_sigs prog) = map f_name prog ++ routine_names.
Proof. unfold program_sigs. rewrite map_app, map_map. reflexivity. Qed.
Lemma find_fn_some P f : forall k, (exists n, find_fn_from k P f = Some n) <-> 1 <= fcount f P.
Proof.
  induction P as [|e P IH]; intros k; cbn; [split; [intros [n H]; discriminate|lia]|]. destruct e; try apply IH.
  destruct (String.eqb f f0); [split; [lia|eauto]|apply IH].
Qed.
Lemma known_found unq alloc ioob entry_fn ts prog P sf f : gen_program unq alloc ioob entry_fn ts prog start = Some (P, sf) ->
  known prog f = match find_fn P f with Some _ => true | None => false end.
Proof.
  intros H. pose proof (ck_fn _ _ _ _ _ (chunk_program _ _ _ _ _ _ _ _ _ H) f) as C. rewrite <- program_names in C.
  unfold known. pose proof (lookup_some (program_sigs prog) f) as K. pose proof (find_fn_some P f 0) as F. fold (find_fn P f) in F.
  rewrite C in F. assert (X : 1 <= count_occ string_dec (map fst (program_sigs prog)) f <-> In f (map fst (program_sigs prog))).
  { rewrite (count_occ_In string_dec). lia. }
  destruct (lookup (program_sigs prog) f) as [g|], (find_fn P f) as [n|]; try reflexivity.
  - exfalso. assert (E : exists n, @None nat = Some n) by (apply F, X, K; eauto). destruct E. discriminate.
  - exfalso. assert (E : exists n, @None signature = Some n) by (apply K, X, F; eauto). destruct E. discriminate.
Qed.
(** The last thing written is no instruction. *)
Lemma ends_written c e : match e with EIns _ _ => False | _ => True end -> all_written (c ++ [e]).
Proof.
  intros He n i ops H. rewrite app_length. cbn. assert (n < List.length (c ++ [e])) by (apply nth_error_Some; congruence).
  rewrite app_length in H0. cbn in H0. destruct (Nat.eq_dec n (List.length c)) as [->|]; [|lia].
  rewrite nth_error_app2, Nat.sub_diag in H by lia. injection H as ->. destruct He.
Qed.
Lemma data_written c : forall a, data_flow a c <> None -> forall n i ops, nth_error c n = Some (EIns i ops) -> False.
Proof.
  induction c as [|e c IH]; intros a H n i ops E; [destruct n; discriminate|].
  destruct n as [|n]; cbn in E; [injection E as ->; now apply H|]. destruct e; cbn in H; try congruence; try (now apply (IH _ H n i ops E)).
  destruct (data_label l); [|congruence]. now apply (IH _ H n i ops E).
Qed.
Lemma program_written unq alloc ioob entry_fn ts prog P sf : gen_program unq alloc ioob entry_fn ts prog start = Some (P, sf) -> all_written P.
Proof.
  intros H. unfold gen_program in H. apply seq_inv in H as (c1 & s1 & c2 & H1 & H & ->). apply seq_inv in H as (c3 & s3 & c4 & H3 & H & ->).
  unfold gen_flush in H. apply seq_inv in H as (d1 & t1 & d2 & G1 & H & ->). ginv1 G1. apply lits_data in H. subst.
  intros n i ops E. rewrite !app_length. cbn [List.length]. assert (n < List.length c1 + List.length c3 \/ List.length c1 + List.length c3 <= n) as [L|L] by lia; [lia|].
  rewrite app_assoc, nth_error_app2 in E by (rewrite app_length; lia). exfalso. eapply (data_written ([EData] ++ d2) false); [|exact E]. cbn. congruence.
Qed.
Lemma slice_nth ks : slice (fun n => nth n ks ([], false)) 0 ks.
Proof. intros j p H. cbn. now apply nth_error_nth. Qed.
