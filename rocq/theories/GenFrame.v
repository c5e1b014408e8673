(** The code of any expression keeps the stack pointer, the frame pointer and the memory
    from the stack pointer on (property C26), whatever state it starts in. *)
From Coq Require Import ZArith List Bool String Lia.
From Verif Require Import X86 GenModel GenProgram GenSpec GenMem GenStatic GenSlots GenLabels GenExec GenLink GenStack.
Import ListNotations.
Open Scope Z_scope.
Ltac Zify.zify_post_hook ::= Z.div_mod_to_equations.
Local Arguments Z.mul : simpl never. Local Arguments Z.add : simpl never. Local Arguments Z.sub : simpl never.
Local Arguments Z.of_nat : simpl never.

(* ------------------------------------------------------- which instructions write *)

Definition to_memory (o : operand) : bool := match o with OMem _ => true | _ => false end.
(** An instruction of expression code: it writes no memory unless it pushes. *)
Definition quiet (e : event) : bool :=
  match e with
  | EIns i ops =>
    match i, ops with
    | movb, _ | enter, _ | leave, _ | ret, _ => false
    | call, _ | pushq, _ | cmpq, _ => true
    | jmp, [OLab _] => true
    | jmp, _ => false
    | _, [o] | _, [_; o] => negb (to_memory o)
    | _, _ => true
    end
  | ELabel _ | EAddr _ | EFlush => true
  | _ => false
  end.
Definition silent (c : list event) : Prop := forallb quiet c = true.
Lemma silent_app a b : silent a -> silent b -> silent (a ++ b).
Proof. unfold silent. intros. rewrite forallb_app. apply andb_true_intro. auto. Qed.
Lemma spill_silent : forall k i, silent (spill_code i k).
Proof.
  induction k as [|k IH]; intros i; cbn [spill_code]; [reflexivity|]. destruct (nth_error _ _); apply silent_app; auto; reflexivity.
Qed.
Lemma unspill_silent : forall k i, silent (unspill_code i k).
Proof.
  induction k as [|k IH]; intros i; cbn [unspill_code]; [reflexivity|]. destruct (nth_error _ _); apply silent_app; auto; reflexivity.
Qed.
Lemma call_silent fi cl odd gc k : (if fi_external fi then gc = [] else exists l, gc = [EAddr l]) -> silent (call_code_of fi cl odd gc k).
Proof.
  intros G. unfold call_code_of. repeat apply silent_app; try apply unspill_silent.
  all: try solve [destruct (fi_variadic fi); reflexivity]. all: try solve [destruct cl; reflexivity]. all: try solve [destruct odd; reflexivity].
  - destruct (_ && _); reflexivity.
  - destruct (fi_external fi); [now subst|destruct G as [l ->]; reflexivity].
Qed.
Lemma pass_silent fi r t : silent (pass_code fi r t).
Proof. unfold pass_code. destruct (_ && _); [|reflexivity]. destruct (ty_kind t); reflexivity. Qed.

Section Code.
Variable slot : nat -> Z.
Definition quietly (g : gst -> option (list event * gst)) : Prop := forall s c s', g s = Some (c, s') -> silent c.
Lemma args_silent args : Forall (fun e => forall ta, quietly (gen_expr slot e ta)) args -> forall fi i, quietly (gen_args slot fi i args).
Proof.
  induction 1 as [|a args Ha _ IH]; intros fi i s c s' H; cbn [gen_args] in H; [ginv H; reflexivity|].
  apply seq_inv in H as (c1 & s1 & c2 & H1 & H & ->). apply seq_inv in H as (c3 & s3 & c4 & H3 & H & ->). apply pass_arg_inv in H3 as (r & N & -> & _).
  apply silent_app; [eapply Ha; exact H1|]. apply silent_app; [apply pass_silent|eapply IH; exact H].
Qed.
Lemma call_quietly args fi cl : Forall (fun e => forall ta, quietly (gen_expr slot e ta)) args ->
  quietly (seq spill_registers (seq (gen_args slot fi 0 args) (finish_call fi cl))).
Proof.
  intros Ha s c s' H. apply seq_inv in H as (c1 & s1 & c2 & H1 & H & ->). apply seq_inv in H as (c3 & s3 & c4 & H3 & H & ->).
  apply spill_registers_inv in H1 as (-> & _). apply (args_silent args Ha fi 0%nat) in H3. apply finish_call_inv in H as (gc & G1 & _ & -> & _).
  apply silent_app; [apply spill_silent|]. apply silent_app; [exact H3|now apply call_silent].
Qed.
Ltac walk :=
  cbn [app];
  match goal with
  | |- silent [] => reflexivity
  | |- silent ((_ ++ _) ++ _) => rewrite <- !app_assoc; walk
  | |- silent (?a :: ?r) => apply (silent_app [a] r); [reflexivity|walk]
  | IH : forall ta, quietly (gen_expr _ ?e ta), G : gen_expr _ ?e ?t ?s = Some (?c, ?s') |- silent (?c ++ _) => apply silent_app; [exact (IH _ _ _ _ G)|walk]
  | IH : forall ta, quietly (gen_expr _ ?e ta), G : gen_expr _ ?e ?t ?s = Some (?c, ?s') |- silent ?c => exact (IH _ _ _ _ G)
  | |- _ => idtac
  end.
Lemma expr_quietly e : forall ta, quietly (gen_expr slot e ta).
Proof.
  induction e using expr_ind'; intros ta s0 c0 s0' H0;
    try (rewrite gen_expr_call in H0 || rewrite gen_expr_call_var in H0 || rewrite gen_expr_call_expr in H0);
    try solve [eapply call_quietly; eassumption]; cbn [gen_expr] in H0.
  1: { ginv H0. destruct (_ || _) in G; [ginv G|]. destruct (_ || _) in G; ginv G; reflexivity. }
  all: try solve [destruct b; ginv H0; walk].
  all: try solve [destruct op; ginv H0; walk].
  all: try solve [destruct ta; ginv H0; walk].
  all: try solve [ginv H0; walk].
  all: try solve [destruct k; ginv H0; walk].
  - apply seq_inv in H0 as (c1 & s1 & c2 & H1 & H0 & ->). apply silent_app; [eapply IHe; exact H1|].
    apply seq_inv in H0 as (c3 & s3 & c4 & H3 & H0 & ->). apply save_inv in H3 as [-> ->].
    apply silent_app; [reflexivity|]. eapply call_quietly; eassumption.
Qed.
End Code.

Lemma expr_no_ioob slot e ta s c s' j : gen_expr slot e ta s = Some (c, s') -> nth_error c j <> Some (ELabel LIoob).
Proof.
  intros H N. pose proof (gp_expr slot e ta []) as G. pose proof (pc_count _ _ _ _ _ (G s c s' (Forall_nil _) H)) as k. specialize (k LIoob). cbn in k.
  apply nth_error_In in N. clear - k N. induction c as [|a c IH]; [destruct N|]. change (a :: c) with ([a] ++ c) in k.
  rewrite lcount_app in k. destruct N as [->|N]; [cbn in k; lia|]. apply IH; [exact N|lia].
Qed.

(* -------------------------------------------------------------------- the machine *)

Section Run.
Variable laddr : label -> Z.
Variable mext : string -> regs * memory -> option (regs * memory).
Variable mskips : string -> bool.
Variable addr : nat -> Z.
Variable place : Z -> option nat.
Variable P : list event.
Local Notation STEP := (step laddr mext mskips addr place P).

Definition sp_of (s : mstate) : Z := fst (fst (mcore s)) rsp.
Definition fp_of (s : mstate) : Z := fst (fst (mcore s)) rbp.
Definition mem_of (s : mstate) : memory := snd (fst (mcore s)).

(** One step of the code from [n] to [n'].  A call is one step: whatever is called
    comes back with the stack and frame pointers it was called with, and leaves the
    memory from the stack pointer up to [hi] alone. *)
Definition ex_step (n n' : nat) (hi : Z) (s s' : mstate) : Prop :=
  fn_step laddr mext mskips addr place P n n' s s' /\
  forall ops, nth_error P (pc s) = Some (EIns call ops) -> forall a, sp_of s <= a < hi -> mem_of s' a = mem_of s a.
Inductive ex_run (n n' : nat) (hi : Z) : mstate -> mstate -> Prop :=
| ex_refl s : ex_run n n' hi s s
| ex_more s s' s'' : ex_run n n' hi s s' -> ex_step n n' hi s' s'' -> ex_run n n' hi s s''.

Lemma write_memory c o v c' : to_memory o = false -> write c o v = Some c' -> snd (fst c') = snd (fst c).
Proof. destruct c as [[rs m] fl]. intros K H. destruct o; try discriminate; cbn [write] in H. injection H as <-. reflexivity. Qed.
Lemma arith_memory c o o' f c' : to_memory o' = false -> arith c o o' f = Some c' -> snd (fst c') = snd (fst c).
Proof.
  unfold arith. intros K H. destruct (read c o); [|discriminate]. destruct (read c o'); [|discriminate].
  destruct (write c o' _) as [[[rs m] fl]|] eqn:E; [|discriminate]. injection H as <-. apply (write_memory _ _ _ _ K) in E. exact E.
Qed.
Ltac brute := repeat match goal with
  | H : None = Some _ |- _ => discriminate H
  | H : Some _ = Some _ |- _ => injection H as <-
  | H : (let '(_, _) := _ in _) = Some _ |- _ => cbn in H
  | H : (if ?x then _ else _) = Some _ |- _ => destruct x eqn:?
  | H : match ?x with _ => _ end = Some _ |- _ => destruct x eqn:?
  end.
Lemma exec_memory i ops rs m fl c' : quiet (EIns i ops) = true -> exec laddr i ops (rs, m, fl) = Some c' ->
  snd (fst c') = m \/ i = pushq /\ exists v, snd (fst c') = store m (word (rs rsp - 8)) v.
Proof.
  intros Q H. destruct i; destruct ops as [|o1 [|o2 [|o3 ops]]]; cbn [quiet] in Q; try discriminate Q; try (cbn [exec] in H; discriminate H).
  all: try (cbn [exec] in H; destruct o1; try discriminate; destruct o2; discriminate).
  all: try solve [apply negb_true_iff in Q; left; cbn [exec] in H; apply (arith_memory _ _ _ _ _ Q) in H; exact H].
  all: try solve [apply negb_true_iff in Q; left; cbn [exec] in H; destruct (read _ _); [|discriminate]; apply (write_memory _ _ _ _ Q) in H; exact H].
  all: cbn [exec] in H.
  all: try solve [left; destruct o1; try discriminate; destruct o2; try discriminate; brute; reflexivity].
  all: try solve [left; destruct o1; try discriminate; brute; reflexivity].
  all: try solve [left; brute; reflexivity].
  all: try solve [left; destruct o1 as [|[]| | | | |]; try discriminate; cbn in H; destruct fl as [[]|]; [|discriminate]; injection H as <-; reflexivity].
  - right. split; [reflexivity|]. destruct (read _ _) as [v|]; [|discriminate]. injection H as <-. exists v. reflexivity.
Qed.

(** A quiet instruction stays inside and moves the depth by at most one. *)
Lemma quiet_next d e y : quiet e = true -> next (Inside d) e = Some y -> exists d', y = Inside d' /\ d' <= d + 1.
Proof.
  intros Q N. destruct e as [i ops|l|f|l| | | |]; try discriminate Q; cbn [next] in N; try (injection N as <-; exists d; split; [reflexivity|lia]).
  destruct i; try discriminate Q; destruct ops as [|o1 [|o2 [|o3 ops]]]; try discriminate N; try discriminate Q.
  all: repeat match goal with
    | H : None = Some _ |- _ => discriminate H
    | H : Some _ = Some _ |- _ => injection H as <-; eexists; split; [reflexivity|lia]
    | H : (if ?x then _ else _) = Some _ |- _ => destruct x eqn:?
    | H : match ?x with _ => _ end = Some _ |- _ => destruct x eqn:?
    end.
Qed.

Section Expr.
Variables (n : nat) (c : list event) (d0 : Z).
Let n' := (n + List.length c)%nat.
Hypothesis Hc : code_at P n c.
Hypothesis Hscan : scan (Inside d0) c = Some (Inside d0).
Hypothesis Hjump : forall l k, In (l, k) (gather jump_here (Inside d0) c) -> In (l, k) (gather label_here (Inside d0) c) \/ l = LIoob.
Hypothesis Habove : above d0 (Inside d0) c.
Hypothesis Hquiet : silent c.
Hypothesis Hlab : forall j l, nth_error c j = Some (ELabel l) -> find_label P l = Some (n + j)%nat.
Hypothesis Hioob : forall p, find_label P LIoob = Some p -> ~ (n <= p <= n')%nat.
Variable st0 : mstate.
Let R := sp_of st0.
Variable hi : Z.
Hypothesis Hroom : 8 * Z.of_nat (List.length c) <= R < W.

Definition framed (s : mstate) : Prop :=
  (exists j d, pc s = (n + j)%nat /\ (j <= List.length c)%nat /\ scan (Inside d0) (firstn j c) = Some (Inside d) /\
    d0 <= d <= d0 + Z.of_nat j /\ fp_of s = fp_of st0 /\ sp_of s = R - 8 * (d - d0) /\ forall a, R <= a < hi -> mem_of s a = mem_of st0 a) \/
  ~ (n <= pc s <= n')%nat.

Lemma code_nth j e : nth_error P (n + j) = Some e -> (j < List.length c)%nat -> nth_error c j = Some e.
Proof.
  intros H Hj. destruct (nth_error c j) as [e'|] eqn:E; [|apply nth_error_None in E; lia]. rewrite <- H. symmetry. now apply Hc.
Qed.
Lemma scan_bound j : forall cs d d', silent cs -> scan (Inside d) (firstn j cs) = Some (Inside d') -> d' <= d + Z.of_nat j.
Proof.
  induction j as [|j IH]; intros cs d d' Hq H; cbn [firstn scan] in H; [injection H as <-; lia|]. destruct cs as [|e cs]; cbn [firstn scan] in H; [injection H as <-; lia|].
  unfold silent in Hq. cbn [forallb] in Hq. apply andb_prop in Hq as [Q1 Q2]. destruct (next _ e) as [y|] eqn:E; [|discriminate].
  destruct (quiet_next _ _ _ Q1 E) as (d1 & -> & L). apply IH in H; [lia|exact Q2].
Qed.
Lemma scan_inside j y : forall cs d, silent cs -> scan (Inside d) (firstn j cs) = Some y -> exists d', y = Inside d'.
Proof.
  induction j as [|j IH]; intros cs d Hq H; cbn [firstn scan] in H; [injection H as <-; eauto|]. destruct cs as [|e cs]; cbn [firstn scan] in H; [injection H as <-; eauto|].
  unfold silent in Hq. cbn [forallb] in Hq. apply andb_prop in Hq as [Q1 Q2]. destruct (next _ e) as [y1|] eqn:E; [|discriminate].
  destruct (quiet_next _ _ _ Q1 E) as (d1 & -> & L). eapply IH; eassumption.
Qed.
Lemma depth_range j d : scan (Inside d0) (firstn j c) = Some (Inside d) -> d0 <= d <= d0 + Z.of_nat j.
Proof.
  intros H. split; [|eapply scan_bound; eassumption].
  exact (scan_level d0 _ _ _ (Z.le_refl _ : d0 <= level (Inside d0)) (above_firstn _ j _ _ Habove) H).
Qed.
Lemma quiet_at j e : nth_error c j = Some e -> quiet e = true.
Proof. intros H. apply nth_error_In in H. exact (proj1 (forallb_forall quiet c) Hquiet e H). Qed.

Lemma framed_step s s' : framed s -> ex_step n n' hi s s' -> framed s'.
Proof.
  intros T [H Hm]. destruct T as [(j & d & T1 & T2 & T3 & T4 & T5 & T6 & T7)|T]; [|exfalso; destruct H; cbn in T; apply T; unfold n' in *; lia].
  assert (Hr : (n <= pc s < n')%nat) by (destruct H; cbn; assumption). assert (Hj : (j < List.length c)%nat) by (unfold n' in Hr; lia).
  assert (Hsp : sp_of s = word (R + 8 * d0 - 8 * d)) by (unfold word; rewrite T6, Z.mod_small; lia).
  destruct H as [s s' e R0 N L ST|p rs m fl q rs' m' fl' ops R0 N Q A1 A2].
  - rewrite T1 in N. pose proof (code_nth j e N Hj) as Nc. pose proof (quiet_at _ _ Nc) as Qe.
    destruct (scan_at _ _ _ _ _ Hscan Nc) as (y1 & y2 & E1 & E2 & E3). rewrite T3 in E1. injection E1 as <-.
    destruct (quiet_next _ _ _ Qe E2) as (d2 & -> & L2). pose proof (depth_range _ _ E3) as D2.
    destruct s as [p [[rs m] fl]]. cbn [pc mcore fst snd sp_of fp_of mem_of] in *. unfold sp_of, fp_of, mem_of in *. cbn [mcore fst snd] in *. subst p.
    assert (Same : next (Inside d) e = Some (Inside d) -> framed (MState (S (n + j)) (rs, m, fl))).
    { intros E. rewrite E in E2. injection E2 as <-. left. exists (S j), d. unfold sp_of, fp_of, mem_of. cbn [pc mcore fst snd]. repeat split; auto; lia. }
    assert (Jump : forall l, jump_here (Inside d) e = [(l, d)] -> goto (rs, m, fl) (find_label P l) = Some s' -> framed s').
    { intros l J G. destruct (find_label P l) as [q|] eqn:Q; [|discriminate]. injection G as <-.
      destruct (Hjump l d) as [K|K].
      - eapply gather_at; [exact T3|exact Nc|rewrite J; now left].
      - apply label_at in K as (j' & y' & K1 & K2 & K3). assert (Some q = Some (n + j')%nat) by (rewrite <- Q; exact (Hlab _ _ K1)).
        injection H as ->. assert (y' = Inside d).
        { destruct (scan_inside _ _ _ _ Hquiet K2) as [d' ->]. destruct K3 as [K3|K3]; congruence. } subst y'.
        pose proof (depth_range _ _ K2) as D'. assert (j' < List.length c)%nat by (apply nth_error_Some; congruence).
        left. exists j', d. unfold sp_of, fp_of, mem_of. cbn [pc mcore fst snd]. repeat split; auto; lia.
      - subst l. right. exact (Hioob _ Q). }
    cbn [step] in ST. rewrite N in ST.
    destruct e as [i ops|l|f|l| | | |]; try discriminate Qe; try discriminate ST; try (injection ST as <-; apply Same; reflexivity).
    assert (Ex : forall c', exec laddr i ops (rs, m, fl) = Some c' -> s' = MState (S (n + j)) c' -> framed s').
    { intros [[rs1 m1] fl1] X ->. left. exists (S j), d2. unfold sp_of, fp_of, mem_of. cbn [pc mcore fst snd].
      pose proof (exec_depth laddr place (rs rbp) (R + 8 * d0) d i ops _ rs m fl _ E2 (conj eq_refl Hsp) L X) as [X1 X2]. cbn [fst] in X1, X2.
      assert (E : rs1 rsp = R - 8 * (d2 - d0)) by (rewrite X2; unfold word; rewrite Z.mod_small; lia).
      split; [lia|]. split; [lia|]. split; [exact E3|]. split; [lia|]. split; [congruence|]. split; [exact E|].
      destruct (exec_memory i ops rs m fl _ Qe X) as [M|(-> & v & M)]; cbn [fst snd] in M; subst m1; [exact T7|].
      intros a Ha. rewrite <- (T7 a Ha). unfold store.
      assert (Ed : d2 = d + 1) by (destruct ops as [|? [|]]; try discriminate E2; injection E2 as <-; reflexivity).
      replace (word (rs rsp - 8)) with (R - 8 * (d2 - d0)); [|rewrite T6; unfold word; rewrite Z.mod_small; lia].
      destruct (Z.ltb_spec a (R - 8 * (d2 - d0) + 8)); [lia|]. now rewrite andb_false_r. }
    destruct i; try discriminate L; try discriminate Qe; try (destruct (exec _ _ _ _) as [c'|]; [|discriminate]; injection ST as <-; exact (Ex _ eq_refl eq_refl)).
    + destruct ops as [|[| | | |a|l|] [|]]; try discriminate Qe; try discriminate ST. eapply Jump; [reflexivity|exact ST].
    + destruct ops as [|[| | | |a|l|] [|]]; try discriminate ST. destruct fl as [[u v]|]; [|discriminate].
      destruct (u =? v); [injection ST as <-; now apply Same|]. eapply Jump; [reflexivity|exact ST].
    + destruct ops as [|[| | | |a|l|] [|]]; try discriminate ST. destruct fl as [[u v]|]; [|discriminate].
      destruct (v <=? u); [|injection ST as <-; now apply Same]. eapply Jump; [reflexivity|exact ST].
  - unfold sp_of, fp_of, mem_of in *. cbn [pc mcore fst snd] in *. subst p. pose proof (code_nth j _ N Hj) as Nc.
    destruct (scan_at _ _ _ _ _ Hscan Nc) as (y1 & y2 & E1 & E2 & E3). rewrite T3 in E1. injection E1 as <-.
    assert (y2 = Inside d).
    { destruct ops as [|o [|]]; try discriminate E2. cbn [next] in E2. destruct (_ =? _); [|discriminate]. congruence. } subst y2.
    assert (M : forall a, R <= a < hi -> m' a = snd (fst (mcore st0)) a).
    { intros a Ha. rewrite <- (T7 a Ha). apply (Hm _ N). lia. }
    destruct Q as [->|[-> [l Ql]]].
    + left. exists (S j), d. cbn [pc mcore fst snd]. unfold sp_of, fp_of, mem_of. cbn [pc mcore fst snd]. repeat split; auto; try lia; congruence.
    + destruct (Nat.eq_dec (S j) (List.length c)) as [Hl|Hl].
      * right. cbn [pc]. unfold n'. lia.
      * replace (S (n + j)) with (n + S j)%nat in Ql by lia. pose proof (code_nth _ _ Ql ltac:(lia)) as Nl.
        destruct (scan_at _ _ _ _ _ Hscan Nl) as (y1 & y2 & G1 & G2 & G3). rewrite E3 in G1. injection G1 as <-. injection G2 as <-.
        left. exists (S (S j)), d. unfold sp_of, fp_of, mem_of. cbn [pc mcore fst snd]. repeat split; auto; try lia; congruence.
Qed.
Lemma framed_more s s' : ex_run n n' hi s s' -> framed s -> framed s'.
Proof. induction 1 as [|s s1 s2 _ IH ST]; intros T; [exact T|]. eapply framed_step; [apply IH; exact T|exact ST]. Qed.
Lemma framed_run s : ex_run n n' hi st0 s -> pc st0 = n -> framed s.
Proof.
  intros H E. apply (framed_more _ _ H). left. exists 0%nat, d0. split; [lia|]. split; [lia|]. split; [reflexivity|]. split; [lia|]. split; [reflexivity|].
  split; [unfold R; lia|reflexivity].
Qed.
Lemma framed_end s : ex_run n n' hi st0 s -> pc st0 = n -> pc s = n' ->
  sp_of s = sp_of st0 /\ fp_of s = fp_of st0 /\ forall a, sp_of st0 <= a < hi -> mem_of s a = mem_of st0 a.
Proof.
  intros H E E'. destruct (framed_run s H E) as [(j & d & T1 & T2 & T3 & T4 & T5 & T6 & T7)|T]; [|unfold n' in *; lia].
  assert (j = List.length c) by (unfold n' in *; lia). subst j. rewrite firstn_all, Hscan in T3. injection T3 as <-.
  fold R. split; [lia|]. split; [exact T5|exact T7].
Qed.
End Expr.
End Run.

(** An expression anywhere in a program.  The code is followed by something else than
    the code that reports bad indices (there is always the end of a function first). *)
Lemma expr_frame unq alloc ioob entry ts full P sf :
  gen_program unq alloc ioob entry ts full start = Some (P, sf) -> NoDup (map_labels ts) ->
  forall slot e ta s c s' n, gen_expr slot e ta s = Some (c, s') -> code_at P n c -> nth_error P (n + List.length c) <> Some (ELabel LIoob) ->
  forall laddr mext mskips addr place hi st st',
  pc st = n -> 8 * Z.of_nat (List.length c) <= sp_of st < W ->
  ex_run laddr mext mskips addr place P n (n + List.length c) hi st st' -> pc st' = (n + List.length c)%nat ->
  sp_of st' = sp_of st /\ fp_of st' = fp_of st /\ forall a, sp_of st <= a < hi -> mem_of st' a = mem_of st a.
Proof.
  intros Hg Hm slot e ta s c s' n G C Hn laddr mext mskips addr place hi st st' Hpc Hroom H E.
  pose proof (whole_label _ _ _ _ _ _ _ _ Hg Hm) as WL. pose proof (proj1 (gen_expr_eff _ _ _ _ _ _ G)) as E0.
  destruct (expr_tracks (g_sp s) slot e ta [] s c s' (Z.le_refl _) G) as (Sc & J & Ab). rewrite E0 in Sc.
  refine (framed_end laddr mext mskips addr place P n c (g_sp s) C Sc _ Ab (expr_quietly slot e ta _ _ _ G) _ _ st hi Hroom st' H Hpc E).
  - intros l k Hj. destruct (J l k Hj) as [K|[K|[]]]; auto.
  - intros j l Hj. apply WL. now apply C.
  - intros p Hp Hr. pose proof (proj2 (find_ioob P 0%nat p Hp)) as Np. rewrite Nat.sub_0_r in Np.
    destruct (Nat.eq_dec p (n + List.length c)) as [->|Hne]; [exact (Hn Np)|].
    destruct (nth_error c (p - n)) as [e'|] eqn:Ee.
    + pose proof (C _ _ Ee) as E'. replace (n + (p - n))%nat with p in E' by lia. rewrite Np in E'. injection E' as <-.
      exact (expr_no_ioob _ _ _ _ _ _ _ G Ee).
    + apply nth_error_None in Ee. lia.
Qed.
