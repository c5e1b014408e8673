(** How the stack pointer moves in generated code (property C28): the depth of the
    stack at every place of a function, and that the machine follows it. *)
From Coq Require Import ZArith List Bool String Lia.
From Verif Require Import X86 GenModel GenProgram GenSpec GenMem GenStatic GenSlots GenLabels GenExec GenLink.
Import ListNotations.
Open Scope Z_scope.
Ltac Zify.zify_post_hook ::= Z.div_mod_to_equations.
Local Arguments Z.mul : simpl never. Local Arguments Z.add : simpl never. Local Arguments Z.sub : simpl never.
Local Arguments Z.of_nat : simpl never.

(* ------------------------------------------------------------------------ depths *)

(** What is known of the stack at a place of a function.
    - [Inside d]: the frame pointer is in place, [d] words lie below it;
    - [Leaving d k]: the frame is gone, the stack pointer is [k] words below where the
      frame pointer was; code that follows the exit is at depth [d] again;
    - [Gone d]: the place cannot be reached from the place before it. *)
Inductive depth := Inside (d : Z) | Leaving (d k : Z) | Gone (d : Z).

Definition kept (o : operand) : bool := match o with OReg rsp | OReg rbp => false | _ => true end.
Definition next (x : depth) (e : event) : option depth :=
  match x with
  | Inside d =>
    match e with
    | ELabel _ | EFlush | EAddr _ => Some (Inside d)
    | EWord _ | EAscii _ | EData => Some (Gone d)
    | EFn _ => None
    | EIns i ops =>
      match i, ops with
      | pushq, [_] => Some (Inside (d + 1))
      | popq, [o] => if kept o then Some (Inside (d - 1)) else None
      | subq, [OImm z; OReg rsp] => if z =? 8 then Some (Inside (d + 1)) else None
      | addq, [OImm z; OReg rsp] => if z =? 8 then Some (Inside (d - 1)) else None
      | call, [_] => if d mod 2 =? 0 then Some (Inside d) else None
      | leave, [] => Some (Leaving d (-1))
      | jmp, [OLab _] | jne, [OLab _] | jae, [OLab _] => Some (Inside d)
      | jmp, _ | jne, _ | jae, _ | je, _ | enter, _ | ret, _ | leave, _ | call, _ | popq, _ | pushq, _ => None
      | cqo, [] => Some (Inside d)
      | cmpq, [_; _] => Some (Inside d)
      | _, [o] => if kept o then Some (Inside d) else None
      | _, [_; o] => if kept o then Some (Inside d) else None
      | _, _ => None
      end
    end
  | Leaving d k =>
    match e with
    | EIns popq [OReg rbx] => Some (Leaving d (k - 1))
    | EIns addq [OImm _; OReg rbx] => Some (Leaving d k)
    | EIns jmp [OMem a] => if (k =? -2) && m_indir a then Some (Gone d) else None
    | EIns ret [] => if k =? -1 then Some (Gone d) else None
    | _ => None
    end
  | Gone d =>
    match e with
    | EFlush | ELabel _ => Some (Inside d)
    | EWord _ | EAscii _ | EData => Some (Gone d)
    | _ => None
    end
  end.
Fixpoint scan (x : depth) (c : list event) : option depth :=
  match c with
  | [] => Some x
  | e :: r => match next x e with Some y => scan y r | None => None end
  end.
(** The labels and the jumps of a piece of code with their depths. *)
Definition label_here (x : depth) (e : event) : list (label * Z) :=
  match x, e with Inside d, ELabel l | Gone d, ELabel l => [(l, d)] | _, _ => [] end.
Definition jump_here (x : depth) (e : event) : list (label * Z) :=
  match x, e with
  | Inside d, EIns jmp [OLab l] | Inside d, EIns jne [OLab l] | Inside d, EIns jae [OLab l] => [(l, d)]
  | _, _ => []
  end.
Fixpoint gather (f : depth -> event -> list (label * Z)) (x : depth) (c : list event) : list (label * Z) :=
  match c with
  | [] => []
  | e :: r => f x e ++ match next x e with Some y => gather f y r | None => [] end
  end.

Lemma scan_app c1 : forall x c2, scan x (c1 ++ c2) = match scan x c1 with Some y => scan y c2 | None => None end.
Proof. induction c1 as [|e c1 IH]; intros x c2; cbn; [reflexivity|]. destruct (next x e); auto. Qed.
Lemma gather_app f c1 : forall x c2, gather f x (c1 ++ c2) = gather f x c1 ++ match scan x c1 with Some y => gather f y c2 | None => [] end.
Proof.
  induction c1 as [|e c1 IH]; intros x c2; cbn; [reflexivity|]. rewrite <- app_assoc. f_equal. destruct (next x e); [apply IH|reflexivity].
Qed.

(** The depth stays above a floor. *)
Definition level (x : depth) : Z := match x with Inside d | Leaving d _ | Gone d => d end.
Fixpoint above (f : Z) (x : depth) (c : list event) : Prop :=
  match c with
  | [] => True
  | e :: r => match next x e with Some y => f <= level y /\ above f y r | None => True end
  end.
Lemma above_app f c1 : forall x c2, above f x c1 -> match scan x c1 with Some y => above f y c2 | None => True end -> above f x (c1 ++ c2).
Proof.
  induction c1 as [|e c1 IH]; intros x c2; cbn; [auto|]. destruct (next x e); [|auto]. intros [H1 H2] H3. auto.
Qed.
Lemma above_firstn f j c : forall x, above f x c -> above f x (firstn j c).
Proof.
  revert c. induction j as [|j IH]; intros [|e c] x H; cbn; auto. cbn in H. destruct (next x e); [|exact I]. destruct H. auto.
Qed.

Section Floor.
Variable floor : Z.
(** A piece of code keeps track of the depth; its jumps go to labels at the same depth,
    to the code that reports bad indices, or to labels in [ext]; the depth never goes
    below the floor. *)
Definition good (ext : list (label * Z)) (d : Z) (c : list event) (d' : Z) : Prop :=
  scan (Inside d) c = Some (Inside d') /\
  (forall l k, In (l, k) (gather jump_here (Inside d) c) ->
    In (l, k) (gather label_here (Inside d) c) \/ l = LIoob \/ In (l, k) ext) /\
  above floor (Inside d) c.

Lemma good_nil ext d : good ext d [] d.
Proof. split; [reflexivity|]. split; [intros l k []|exact I]. Qed.
Lemma good_app ext a c1 b c2 d : good ext a c1 b -> good ext b c2 d -> good ext a (c1 ++ c2) d.
Proof.
  intros (S1 & J1 & A1) (S2 & J2 & A2). split; [now rewrite scan_app, S1|]. split; [|apply above_app; [exact A1|now rewrite S1]]. intros l k. rewrite !gather_app, S1, !in_app_iff.
  intros [H|H]; [apply J1 in H|apply J2 in H]; tauto.
Qed.
Lemma good_one ext d e d' : next (Inside d) e = Some (Inside d') -> floor <= d' -> jump_here (Inside d) e = [] -> good ext d [e] d'.
Proof. intros H Hf J. split; [cbn [scan]; now rewrite H|]. split; [|cbn [above]; rewrite H; cbn; auto]. intros l k. cbn [gather]. rewrite J, H. intros []. Qed.
Ltac good1 := apply good_one; [first [eassumption | reflexivity]|first [eassumption | cbn; lia]|first [assumption | reflexivity]].
Lemma good_cons ext d e c d1 d' : next (Inside d) e = Some (Inside d1) -> floor <= d1 -> jump_here (Inside d) e = [] -> good ext d1 c d' -> good ext d (e :: c) d'.
Proof. intros H Hf J G. apply (good_app ext d [e] d1 c d'); [good1|exact G]. Qed.
Lemma good_jump ext d e l c d' : jump_here (Inside d) e = [(l, d)] -> floor <= d -> l = LIoob \/ In (l, d) ext -> good ext d c d' -> good ext d (e :: c) d'.
Proof.
  intros J Hf Hl G. apply (good_app ext d [e] d c d'); [|exact G].
  assert (N : next (Inside d) e = Some (Inside d)).
  { destruct e as [i ops| | | | | | |]; try discriminate. destruct i; try discriminate; destruct ops as [|[] [|]]; try discriminate; reflexivity. }
  split; [cbn [scan]; now rewrite N|]. split; [|cbn [above]; rewrite N; cbn; auto]. intros l' k. cbn [gather]. rewrite J, N. cbn [app In]. intros [H|[]]. injection H as <- <-. tauto.
Qed.
Lemma good_label d c1 l c2 d' : scan (Inside d) c1 = Some (Inside d') -> In (l, d') (gather label_here (Inside d) (c1 ++ ELabel l :: c2)).
Proof. intros H. rewrite gather_app, H. apply in_or_app. right. cbn. now left. Qed.
Lemma good_close ext l k d c d' : good ((l, k) :: ext) d c d' -> In (l, k) (gather label_here (Inside d) c) -> good ext d c d'.
Proof.
  intros (S & J & A) H. split; [exact S|]. split; [|exact A]. intros l' k' Hj. destruct (J _ _ Hj) as [G|[G|[G|G]]]; auto. injection G as <- <-. auto.
Qed.
Lemma scan_level f c : forall x y, f <= level x -> above f x c -> scan x c = Some y -> f <= level y.
Proof.
  induction c as [|e c IH]; intros x y Hx Ha Hs; cbn in *; [now injection Hs as <-|]. destruct (next x e) as [z|]; [|discriminate].
  destruct Ha as [H1 H2]. eauto.
Qed.
Lemma good_end ext d c d' : floor <= d -> good ext d c d' -> floor <= d'.
Proof. intros H (S & _ & A). exact (scan_level floor c (Inside d) (Inside d') H A S). Qed.
Lemma good_weaken ext ext' d c d' : good ext d c d' -> incl ext ext' -> good ext' d c d'.
Proof. intros (S & J & A) H. split; [exact S|]. split; [|exact A]. intros l k Hj. destruct (J _ _ Hj) as [G|[G|G]]; auto. Qed.

(* ------------------------------------------------------------- pieces of generators *)

Lemma spill_good ext : forall k i d, floor <= d -> (i + k <= 6 \/ k = 0)%nat -> good ext d (spill_code i k) (d + Z.of_nat k).
Proof.
  induction k as [|k IH]; intros i d Hf H; cbn [spill_code]; [replace (d + Z.of_nat 0) with d by lia; apply good_nil|].
  destruct (nth_error arg_regs i) as [r|] eqn:E.
  - eapply good_app; [apply IH; lia|]. apply good_one; [|lia|reflexivity]. cbn. do 2 f_equal. lia.
  - apply nth_error_None in E. cbn in E. lia.
Qed.
Lemma arg_kept i r : nth_error arg_regs i = Some r -> kept (OReg r) = true.
Proof. do 6 (destruct i as [|i]; [intros H; injection H as <-; reflexivity|]). destruct i; discriminate. Qed.
Lemma unspill_good ext : forall k i d, floor <= d - Z.of_nat k -> (i + k <= 6 \/ k = 0)%nat -> good ext d (unspill_code i k) (d - Z.of_nat k).
Proof.
  induction k as [|k IH]; intros i d Hf H; cbn [unspill_code]; [replace (d - Z.of_nat 0) with d by lia; apply good_nil|].
  destruct (nth_error arg_regs i) as [r|] eqn:E.
  - cbn [app]. eapply good_cons with (d1 := d - 1); [cbn [next]; now rewrite (arg_kept _ _ E)|lia|reflexivity|].
    replace (d - Z.of_nat (S k)) with (d - 1 - Z.of_nat k) by lia. apply IH; lia.
  - apply nth_error_None in E. cbn in E. lia.
Qed.
Lemma call_good ext fi cl odd gc k d : (if fi_external fi then gc = [] else exists l, gc = [EAddr l]) -> (k <= 6)%nat ->
  let sp := d - match cl with CSaved => 1 | _ => 0 end in
  odd = negb (sp mod 2 =? 0) -> floor <= sp - Z.of_nat k -> good ext d (call_code_of fi cl odd gc k) (sp - Z.of_nat k).
Proof.
  intros Hgc Hk sp Hodd Hf. unfold call_code_of. assert (Hs : sp <= d) by (unfold sp; destruct cl; lia).
  assert (Ho : sp <= if odd then sp + 1 else sp) by (destruct odd; lia).
  eapply good_app with (b := d); [destruct (fi_variadic fi); [good1|apply good_nil]|].
  eapply good_app with (b := sp); [destruct cl; unfold sp in *; rewrite ?Z.sub_0_r in *; [apply good_nil|apply good_nil|good1]|].
  eapply good_app with (b := if odd then sp + 1 else sp); [destruct odd; [good1|apply good_nil]|].
  assert (He : (if odd then sp + 1 else sp) mod 2 = 0).
  { rewrite Hodd. destruct (Z.eqb_spec (sp mod 2) 0); cbn [negb]; lia. }
  eapply good_app with (b := if odd then sp + 1 else sp).
  { apply good_one; [|lia|destruct cl; reflexivity]. destruct cl; cbn [next]; rewrite He; reflexivity. }
  eapply good_app with (b := if odd then sp + 1 else sp).
  { destruct (_ && _); [|apply good_nil]. eapply good_cons; [reflexivity|cbn; lia|reflexivity|good1]. }
  eapply good_app with (b := if odd then sp + 1 else sp).
  { destruct (fi_external fi); [subst gc; apply good_nil|]. destruct Hgc as [l ->]. good1. }
  eapply good_app with (b := sp); [|apply unspill_good; lia].
  destruct odd; [|apply good_nil]. apply good_one; [|lia|reflexivity]. cbn. do 2 f_equal. lia.
Qed.
Lemma pass_good ext fi i r t d : nth_error arg_regs i = Some r -> floor <= d -> good ext d (pass_code fi r t) d.
Proof.
  intros H Hf. pose proof (arg_kept _ _ H) as K. unfold pass_code. eapply good_cons; [cbn [next]; now rewrite K|exact Hf|reflexivity|].
  destruct (_ && _); [|apply good_nil]. destruct (ty_kind t); try apply good_nil; (apply good_one; [cbn [next]; now rewrite K|exact Hf|reflexivity]).
Qed.

(* ---------------------------------------------------------------------- expressions *)

Section Code.
Variable slot : nat -> Z.
Definition tracks (g : gst -> option (list event * gst)) : Prop :=
  forall ext s c s', floor <= g_sp s -> g s = Some (c, s') -> good ext (g_sp s) c (g_sp s').

Lemma args_good args : Forall (fun e => forall ta, tracks (gen_expr slot e ta)) args ->
  forall fi i, tracks (gen_args slot fi i args).
Proof.
  induction 1 as [|a args Ha _ IH]; intros fi i ext s c s' Hf H; cbn [gen_args] in H.
  - ginv H. apply good_nil.
  - apply seq_inv in H as (c1 & s1 & c2 & H1 & H & ->). apply (Ha false ext _ _ _ Hf) in H1. pose proof (good_end _ _ _ _ Hf H1) as Hf1.
    apply seq_inv in H as (c3 & s3 & c4 & H3 & H & ->). apply pass_arg_inv in H3 as (r & N & -> & I1 & _).
    apply (IH _ _ ext) in H; [|lia]. rewrite I1 in H. eapply good_app; [exact H1|]. eapply good_app; [eapply pass_good; [exact N|exact Hf1]|exact H].
Qed.
Lemma call_tracks args fi cl : Forall (fun e => forall ta, tracks (gen_expr slot e ta)) args ->
  forall ext s c s', floor <= g_sp s - match cl with CSaved => 1 | _ => 0 end ->
    seq spill_registers (seq (gen_args slot fi 0 args) (finish_call fi cl)) s = Some (c, s') -> good ext (g_sp s) c (g_sp s').
Proof.
  intros Ha ext s c s' Hf H. assert (Hf0 : floor <= g_sp s) by (destruct cl; lia). apply seq_inv in H as (c1 & s1 & c2 & H1 & H & ->). apply seq_inv in H as (c3 & s3 & c4 & H3 & H & ->).
  apply spill_registers_inv in H1 as (-> & I1 & I2 & I3 & _).
  assert (J : tl (g_reg s3) = tl (g_reg s1) /\ g_sp s3 = g_sp s1).
  { eapply gen_args_eff in H3 as (J0 & J & _); [split; [exact J|exact J0]|]. apply Forall_forall. intros. eapply gen_expr_eff; eauto. }
  destruct J as [J JS]. apply (args_good args Ha fi 0%nat ext) in H3; [|lia].
  apply finish_call_inv in H as (gc & G1 & _ & -> & K1 & _). rewrite J, I3 in *. cbn [tl] in *. fold (in_use_types s) in *.
  eapply good_app; [apply spill_good; lia|]. rewrite <- I2. eapply good_app; [exact H3|]. rewrite K1. apply call_good; [exact G1|lia|reflexivity|]. destruct cl; lia.
Qed.

Ltac good_walk :=
  cbn [app];
  match goal with
  | |- good _ ?a [] ?b => replace b with a by (cbn; lia); apply good_nil
  | |- good _ _ ((_ ++ _) ++ _) _ => rewrite <- !app_assoc; good_walk
  | |- good _ _ (_ :: _) _ => eapply good_cons; [reflexivity|cbn; lia|reflexivity|good_walk]
  | IH : forall ta, tracks (gen_expr _ ?e ta), G : gen_expr _ ?e ?t ?s = Some (?c, ?s') |- good ?ext ?a (?c ++ _) _ =>
      let K := fresh "K" in let K0 := fresh "K" in pose proof (IH t ext s c s' ltac:(cbn; lia) G) as K; replace (g_sp s) with a in K by (cbn; lia);
      pose proof (proj1 (gen_expr_eff _ _ _ _ _ _ G)) as K0; cbn in K0; eapply good_app; [exact K|clear K; good_walk]
  | IH : forall ta, tracks (gen_expr _ ?e ta), G : gen_expr _ ?e ?t ?s = Some (?c, ?s') |- good ?ext ?a ?c ?b =>
      let K := fresh "K" in pose proof (IH t ext s c s' ltac:(cbn; lia) G) as K; replace (g_sp s) with a in K by (cbn; lia);
      replace b with (g_sp s') by (cbn; lia); exact K
  | |- _ => idtac
  end.
Lemma expr_tracks e : forall ta, tracks (gen_expr slot e ta).
Proof.
  induction e using expr_ind'; intros ta ext s0 c0 s0' Hf H0;
    try (rewrite gen_expr_call in H0 || rewrite gen_expr_call_var in H0 || rewrite gen_expr_call_expr in H0);
    try solve [eapply call_tracks; [eassumption| |eassumption]; cbn; lia]; cbn [gen_expr] in H0.
  1: { ginv H0. destruct (_ || _) in G; [ginv G|]. destruct (_ || _) in G; ginv G; repeat (eapply good_cons; [reflexivity|cbn; lia|reflexivity|]); apply good_nil. }
  all: try solve [destruct b; ginv H0; good1].
  all: try solve [destruct b; ginv H0; good_walk].
  all: try solve [destruct op; ginv H0; good_walk].
  all: try solve [destruct ta; ginv H0; good_walk].
  all: try solve [ginv H0; good_walk].
  - apply seq_inv in H0 as (c1 & s1 & c2 & H1 & H0 & ->). pose proof (proj1 (gen_expr_eff _ _ _ _ _ _ H1)) as E0.
    apply (IHe1 false ext) in H1; [|exact Hf]. eapply good_app; [exact H1|].
    apply new_label_inv in H0 as (c3 & -> & H0). apply new_label_inv in H0 as (c4 & -> & H0).
    set (els := LGen PElse _) in *. set (ex := LGen PExit _) in *.
    ginv H0.
    assert (E1 : g_sp s = g_sp s1) by (apply gen_expr_eff in G as (E & _); exact E).
    assert (E2 : g_sp s2 = g_sp s) by (apply gen_expr_eff in G0 as (E & _); exact E).
    cbn [app].
    match goal with |- good _ ?d _ _ =>
      pose proof (fun F => IHe2 false ((els, d) :: (ex, d) :: ext) _ _ _ F G) as K2; pose proof (fun F => IHe3 false ((els, d) :: (ex, d) :: ext) _ _ _ F G0) as K3 end.
    change (g_sp (set_lab S (set_lab S s1))) with (g_sp s1) in *. rewrite E2, E1 in *. specialize (K2 ltac:(lia)). specialize (K3 ltac:(lia)).
    do 2 (eapply good_cons; [reflexivity|cbn; lia|reflexivity|]).
    eapply good_close with (l := ex) (k := g_sp s1); [eapply good_close with (l := els) (k := g_sp s1)|].
    + eapply good_cons; [reflexivity|cbn; lia|reflexivity|]. eapply good_jump; [reflexivity|cbn; lia|right; left; reflexivity|].
      eapply good_app; [exact K2|]. cbn [app]. eapply good_jump; [reflexivity|cbn; lia|right; right; left; reflexivity|].
      eapply good_cons; [reflexivity|cbn; lia|reflexivity|]. eapply good_app; [exact K3|]. good1.
    + match goal with |- In _ (gather _ _ (?a :: ?b :: ?c ++ ?e :: ELabel els :: ?r)) =>
        change (In (els, g_sp s1) (gather label_here (Inside (g_sp s1)) ((a :: b :: c) ++ [e] ++ ELabel els :: r))); rewrite app_assoc end.
      apply good_label. cbn [app scan next]. rewrite scan_app, (proj1 K2). reflexivity.
    + match goal with |- In _ (gather _ _ (?a :: ?b :: ?c ++ ?e :: ?f :: ?g ++ ?r)) =>
        replace (a :: b :: c ++ e :: f :: g ++ r) with ((a :: b :: c ++ e :: f :: g) ++ r) by (cbn [app]; rewrite <- app_assoc; reflexivity) end.
      apply good_label. cbn [app scan next]. rewrite scan_app, (proj1 K2). cbn [app scan next]. exact (proj1 K3).
  - apply seq_inv in H0 as (c1 & s1 & c2 & H1 & H0 & ->). pose proof (proj1 (gen_expr_eff _ _ _ _ _ _ H1)) as E0. pose proof (IHe false ext _ _ _ Hf H1) as K1. eapply good_app; [exact K1|].
    apply seq_inv in H0 as (c3 & s3 & c4 & H3 & H0 & ->). apply save_inv in H3 as [-> ->]. eapply good_cons; [reflexivity|cbn; lia|reflexivity|].
    cbn [app]. apply (call_tracks args fi CSaved H ext) in H0; [exact H0|cbn; lia].
  - destruct ta; ginv H0; pose proof (proj1 (gen_expr_eff _ _ _ _ _ _ G)) as E0; pose proof (proj1 (gen_expr_eff _ _ _ _ _ _ G0)) as E1; cbn in E1;
      (eapply good_app; [apply (IHe1 false); eassumption|]);
      (eapply good_cons; [reflexivity|cbn; lia|reflexivity|]); cbn [app];
      (eapply good_app; [apply (fun F => IHe2 false ext _ _ _ F G0); cbn; lia|]); good_walk;
      (eapply good_jump; [reflexivity|cbn; lia|left; reflexivity|]); good_walk.
Qed.

(* ----------------------------------------------------------------------- statements *)

Variable xr : bool.
Lemma exit_good b ext d s c s' : gen_exit b s = Some (c, s') -> floor <= d -> good ext d c d.
Proof.
  intros H Hf. apply gen_exit_inv in H as [_ ->]. destruct b; (split; [reflexivity|]); (split; [intros l k []|cbn [app above next level]; rewrite ?andb_true_r; cbn; repeat split; auto]).
Qed.
Lemma list_tracks l : Forall (fun st => tracks (gen_stmt slot xr st)) l -> tracks (gen_list slot xr l).
Proof.
  induction 1 as [|st l Hst _ IH]; intros ext s c s' Hf H; cbn [gen_list] in H.
  - ginv H. apply good_nil.
  - apply seq_inv in H as (c1 & s1 & c2 & H1 & H & ->). apply (Hst ext _ _ _ Hf) in H1.
    eapply good_app; [exact H1|apply IH; [eapply good_end; eassumption|exact H]].
Qed.
Lemma block_tracks l : Forall (fun st => tracks (gen_stmt slot xr st)) l -> tracks (gen_block slot xr l).
Proof.
  intros Hl ext s c s' Hf H. apply gen_block_inv in H as (s1 & H1 & H2 & _). apply (list_tracks l Hl ext) in H1; [|exact Hf].
  rewrite H2. exact H1.
Qed.
Lemma assign_tracks das l e : tracks (gen_assign slot das l e).
Proof.
  intros ext s c s' Hf H. unfold gen_assign in H. apply seq_inv in H as (c1 & s1 & c2 & H1 & H & ->).
  apply seq_inv in H as (c3 & s3 & c4 & H3 & H & ->). apply save_inv in H3 as [-> ->].
  apply seq_inv in H as (c5 & s5 & c6 & H5 & H & ->).
  apply seq_inv in H as (c7 & s7 & c8 & H7 & H & ->). apply restore_inv in H7 as [-> ->].
  apply seq_inv in H as (c9 & s9 & c10 & H9 & H & ->). apply ins_inv in H9 as [-> ->].
  assert (E : c10 = [] /\ g_sp s' = g_sp s5 - 1).
  { destruct das as [[y t]|]; [apply add_root_inv in H as (-> & E & _); auto|]. ginv H. auto. }
  destruct E as [-> ->]. pose proof (proj1 (gen_expr_eff _ _ _ _ _ _ H1)) as E0. pose proof (proj1 (gen_expr_eff _ _ _ _ _ _ H5)) as E1. cbn in E1.
  eapply good_app; [eapply expr_tracks; [exact Hf|exact H1]|]. eapply good_cons; [reflexivity|cbn; lia|reflexivity|]. cbn [app].
  apply (expr_tracks l true ext) in H5; [|cbn; lia]. eapply good_app; [exact H5|]. cbn [app].
  eapply good_cons; [reflexivity|cbn; lia|reflexivity|]. good1.
Qed.
Lemma branches_good bs ext ex s0 : Forall (fun b => Forall (fun st => tracks (gen_stmt slot xr st)) (snd b)) bs -> In (ex, g_sp s0) ext -> floor <= g_sp s0 ->
  forall s c s', gen_branches slot xr ex bs s = Some (c, s') -> g_sp s = g_sp s0 -> good ext (g_sp s0) c (g_sp s0).
Proof.
  intros Hbs Hx Hf. induction Hbs as [|[c b] bs Hb _ IH]; intros s c2 s2 H2 Hd; cbn [gen_branches] in H2.
  - ginv H2. apply good_nil.
  - cbn [snd] in Hb. destruct c as [c|].
    + apply seq_inv in H2 as (c3 & s3 & c4 & H3 & H2 & ->). apply seq_inv in H2 as (c5 & s5 & c6 & H5 & H2 & ->).
      pose proof (gen_expr_eff _ _ _ _ _ _ H3) as (E3 & _). apply (expr_tracks c false ext) in H3; [|lia]. rewrite E3, Hd in H3.
      eapply good_app; [exact H3|].
      apply new_label_inv in H5 as (c7 & -> & H5). set (nx := LGen PElse _) in *. ginv H5.
      pose proof (gen_block_eff' _ _ _ _ _ _ G) as (E4 & _). pose proof (fun F => block_tracks b Hb ((nx, g_sp s0) :: ext) _ _ _ F G) as K.
      change (g_sp (set_lab S s3)) with (g_sp s3) in *. rewrite E4, E3, ?Hd in K. specialize (K Hf).
      eapply good_app; [|eapply IH; [exact H2|congruence]]. cbn [app]. eapply good_cons; [reflexivity|cbn; lia|reflexivity|].
      eapply good_close with (l := nx) (k := g_sp s0).
      * eapply good_cons; [reflexivity|cbn; lia|reflexivity|]. eapply good_jump; [reflexivity|cbn; lia|right; left; reflexivity|].
        eapply good_app; [exact K|]. cbn [app]. eapply good_jump; [reflexivity|cbn; lia|right; right; exact Hx|]. good1.
      * match goal with |- In _ (gather _ _ (?a :: ?b :: ?c ++ [?e; ELabel nx])) =>
          change (In (nx, g_sp s0) (gather label_here (Inside (g_sp s0)) ((a :: b :: c) ++ [e] ++ [ELabel nx]))); rewrite app_assoc end.
        apply good_label. cbn [app scan next]. rewrite scan_app, (proj1 K). reflexivity.
    + apply seq_inv in H2 as (c3 & s3 & c4 & H3 & H2 & ->). pose proof (gen_block_eff' _ _ _ _ _ _ H3) as (E3 & _).
      apply (block_tracks b Hb ext) in H3; [|lia]. rewrite E3, Hd in H3. eapply good_app; [exact H3|]. eapply IH; [exact H2|congruence].
Qed.
Lemma stmt_tracks st : tracks (gen_stmt slot xr st).
Proof.
  induction st using stmt_ind'; intros ext s0 c0 s0' Hf H0.
  - cbn [gen_stmt] in H0. unfold gen_return in H0. apply seq_inv in H0 as (c1 & s1 & c2 & H1 & H & ->).
    pose proof H as H'. apply gen_exit_inv in H' as [-> _]. assert (K : good ext (g_sp s0) c1 (g_sp s1)) by (destruct e; [eapply expr_tracks; [exact Hf|exact H1]|ginv H1; apply good_nil]).
    eapply good_app; [exact K|eapply exit_good; [exact H|eapply good_end; eassumption]].
  - rewrite gen_stmt_if in H0. apply new_label_inv in H0 as (c1 & -> & H0). apply seq_inv in H0 as (c2 & s2 & c3 & H2 & H0 & ->).
    apply emit_inv in H0 as [-> ->]. set (ex := LGen PIfEnd _) in *.
    pose proof (gen_branches_eff _ _ _ _ _ _ _ H2) as (E & _). change (g_sp (set_lab S s0)) with (g_sp s0) in E. rewrite E.
    eapply good_cons; [reflexivity|cbn; lia|reflexivity|]. cbn [app].
    assert (K : good ((ex, g_sp s0) :: ext) (g_sp s0) c2 (g_sp s0)).
    { eapply branches_good; [exact H|now left|exact Hf|exact H2|reflexivity]. }
    eapply good_close with (l := ex) (k := g_sp s0).
    + eapply good_app; [exact K|]. good1.
    + apply good_label. exact (proj1 K).
  - cbn [gen_stmt] in H0. exact (assign_tracks _ _ _ ext _ _ _ Hf H0).
  - cbn [gen_stmt] in H0. exact (assign_tracks _ _ _ ext _ _ _ Hf H0).
  - rewrite gen_stmt_while in H0. apply new_label_inv in H0 as (c1 & -> & H0). apply new_label_inv in H0 as (c2 & -> & H0).
    set (ex := LGen PWhileEnd _) in *. set (st := LGen PWhileStart _) in *. ginv H0.
    pose proof (gen_expr_eff _ _ _ _ _ _ G) as (E1 & _). pose proof (gen_block_eff' _ _ _ _ _ _ G0) as (E2 & _).
    change (g_sp (set_lab S (set_lab S s0))) with (g_sp s0) in *. rewrite E1 in E2.
    pose proof (expr_tracks c false ((st, g_sp s0) :: (ex, g_sp s0) :: ext) (set_lab S (set_lab S s0)) _ _ Hf G) as K1.
    pose proof (block_tracks b H ((st, g_sp s0) :: (ex, g_sp s0) :: ext) _ _ _ (eq_ind_r (fun z => floor <= z) Hf E1) G0) as K2.
    change (g_sp (set_lab S (set_lab S s0))) with (g_sp s0) in *. rewrite ?E2, ?E1 in *.
    cbn [app]. do 2 (eapply good_cons; [reflexivity|cbn; lia|reflexivity|]).
    eapply good_close with (l := ex) (k := g_sp s0); [eapply good_close with (l := st) (k := g_sp s0)|].
    + eapply good_cons; [reflexivity|cbn; lia|reflexivity|]. eapply good_app; [exact K1|]. cbn [app]. eapply good_cons; [reflexivity|cbn; lia|reflexivity|].
      eapply good_jump; [reflexivity|cbn; lia|right; right; left; reflexivity|]. eapply good_app; [exact K2|]. cbn [app].
      eapply good_jump; [reflexivity|cbn; lia|right; left; reflexivity|]. good1.
    + now left.
    + match goal with |- In _ (gather _ _ (?a :: ?b ++ ?e :: ?f :: ?g ++ [?h; ?k])) =>
        replace (a :: b ++ e :: f :: g ++ [h; k]) with ((a :: b ++ e :: f :: g ++ [h]) ++ [k])
          by (cbn [app]; rewrite <- !app_assoc; cbn [app]; rewrite <- !app_assoc; reflexivity) end.
      apply good_label. cbn [app scan next]. rewrite scan_app, (proj1 K1). cbn [app scan next]. rewrite scan_app, (proj1 K2). reflexivity.
  - rewrite gen_stmt_block in H0. apply (block_tracks b H ext) in H0; [exact H0|exact Hf].
  - cbn [gen_stmt] in H0. eapply expr_tracks; [exact Hf|exact H0].
Qed.
End Code.

(* ------------------------------------------------------------------------ functions *)

Lemma params_good ext d ps : forall i s c s', gen_params i ps s = Some (c, s') -> floor <= d -> good ext d c d /\ g_sp s' = g_sp s.
Proof.
  induction ps as [|[x t] ps IH]; intros i s c s' H Hf; cbn [gen_params] in H.
  - ginv H. split; [apply good_nil|reflexivity].
  - apply seq_inv in H as (c1 & s1 & c2 & H1 & H & ->). ginv1 H1. subst.
    apply seq_inv in H as (c3 & s3 & c4 & H3 & H & ->). apply add_root_inv in H3 as (-> & E & _). apply IH in H as [K E']; [|exact Hf].
    split; [|congruence]. cbn [app]. eapply good_cons; [reflexivity|cbn; lia|reflexivity|exact K].
Qed.
Lemma fields_good ext d n : forall i off s c s', gen_fields i off n s = Some (c, s') -> floor <= d -> good ext d c d /\ g_sp s' = g_sp s.
Proof.
  induction n as [|n IH]; intros i off s c s' H Hf; cbn [gen_fields] in H.
  - ginv H. split; [apply good_nil|reflexivity].
  - ginv1 H. subst. match goal with G : gen_fields _ _ _ _ = _ |- _ => apply IH in G as [K E]; [|exact Hf] end.
    split; [|congruence]. cbn [app]. do 2 (eapply good_cons; [reflexivity|cbn; lia|reflexivity|]). exact K.
Qed.
End Floor.
Lemma words_scan d l : forall x r, x = Inside d \/ x = Gone d ->
  scan x (map tagged_word l ++ EFlush :: r) = scan (Inside d) r /\
  (forall lk, In lk (gather jump_here (Inside d) r) <-> In lk (gather jump_here x (map tagged_word l ++ EFlush :: r))) /\
  (forall f, f <= d -> above f (Inside d) r -> above f x (map tagged_word l ++ EFlush :: r)).
Proof.
  induction l as [|z l IH]; intros x r Hx.
  - destruct Hx as [-> | ->]; cbn; tauto.
  - cbn [map app]. destruct (IH (Gone d) r (or_intror eq_refl)) as (I1 & I2 & I3).
    destruct Hx as [-> | ->]; cbn [scan next tagged_word gather jump_here app above level]; auto.
Qed.
Lemma maps_scan d l : forall x, x = Inside d \/ x = Gone d -> exists y, scan x (map_data l) = Some y /\
  (forall lk, ~ In lk (gather jump_here x (map_data l))) /\ forall f, f <= d -> above f x (map_data l).
Proof.
  induction l as [|[n rs] l IH]; intros x Hx.
  - exists x. split; [reflexivity|]. split; [intros lk []|intros; exact I].
  - cbn [map_data flat_map]. change (flat_map _ l) with (map_data l). unfold gc_map_data. cbn [fst snd app].
    destruct (IH (Inside d) (or_introl eq_refl)) as (y & Y1 & Y2 & Y3). exists y.
    destruct (words_scan d (map (fun r => fst r / 8) rs) (Gone d) (map_data l) (or_intror eq_refl)) as (S1 & S2 & S3).
    assert (N : next x (ELabel (LMap n)) = Some (Inside d)) by (destruct Hx as [-> | ->]; reflexivity).
    assert (J : jump_here x (ELabel (LMap n)) = []) by (destruct Hx as [-> | ->]; reflexivity).
    cbn [scan gather]. rewrite N, J. cbn [next tagged_word jump_here app]. rewrite <- app_assoc. cbn [app].
    rewrite S1. split; [exact Y1|]. split; [intros lk H; apply S2 in H; exact (Y2 _ H)|].
    intros f Hf. cbn [above]. rewrite N. cbn [next tagged_word level]. split; [exact Hf|]. split; [exact Hf|]. apply S3; auto.
Qed.

(** The code of a function: after the prologue the frame holds an even number of
    words, from there on the depth is known everywhere. *)
Definition rounded (fd : fundef) : Z := round_temps (fst (fn_slots fd)).
Lemma rounded_ok fd : 0 <= rounded fd /\ rounded fd mod 2 = 0.
Proof.
  unfold rounded. pose proof (fn_slots_ok fd) as H. destruct (fn_slots fd) as [t l]. destruct H as (H & _). cbn [fst].
  unfold round_temps. destruct (Z.eqb_spec (t mod 2) 0); lia.
Qed.
Lemma fn_scan alloc fd s c s' : gen_fn alloc fd s = Some (c, s') -> exists b y,
  c = EFn (f_name fd) :: EIns enter [OImm (rounded fd * 8); OImm 0] :: b /\ scan (Inside (rounded fd)) b = Some y /\
  (forall l k, In (l, k) (gather jump_here (Inside (rounded fd)) b) -> In (l, k) (gather label_here (Inside (rounded fd)) b) \/ l = LIoob) /\
  above (rounded fd) (Inside (rounded fd)) b.
Proof.
  pose proof (rounded_ok fd) as [_ Hev].
  unfold gen_fn, rounded in *. destruct (fn_slots fd) as [temps sl]. cbn [fst] in *. intros H.
  apply seq_inv in H as (c1 & s1 & c2 & H1 & H & ->). apply modify_inv in H1 as [-> ->].
  apply seq_inv in H as (c3 & s3 & c4 & H3 & H & ->). unfold gen_entry in H3.
  apply seq_inv in H3 as (c5 & s5 & c6 & H5 & H6 & ->). apply emit_inv in H5 as [-> ->]. apply ins_inv in H6 as [-> ->].
  apply seq_inv in H as (c7 & s7 & c8 & H7 & H & ->). apply modify_inv in H7 as [-> ->].
  apply seq_inv in H as (c9 & s9 & c10 & H9 & H & ->).
  apply seq_inv in H as (c11 & s11 & c12 & H11 & H & ->). injection H as <- <-. change (flat_map _ (g_maps s11)) with (map_data (g_maps s11)).
  set (d := round_temps temps) in *.
  set (s0 := set_sp _ _) in H9. assert (D0 : g_sp s0 = d) by (cbn; lia).
  destruct (params_good d [] d _ _ _ _ _ H9 (Z.le_refl _)) as [K9 E9].
  assert (K : good d [] d c11 (g_sp s11)).
  { assert (D9 : d <= g_sp s9) by lia. replace (good d [] d) with (good d [] (g_sp s9)) by (f_equal; lia). destruct (f_body fd) as [l|e|tag id descr].
    - apply seq_inv in H11 as (c13 & s13 & c14 & H13 & H & ->).
      assert (K : good d [] (g_sp s9) c13 (g_sp s13)).
      { eapply block_tracks; [|exact D9|exact H13]. apply Forall_forall; intros; apply stmt_tracks. }
      eapply good_app; [exact K|]. pose proof (good_end _ _ _ _ _ D9 K).
      destruct (_ && _); [pose proof H as H'; apply gen_exit_inv in H' as [-> _]; eapply exit_good; eassumption|]. ginv H. apply good_nil.
    - unfold gen_return in H11. apply seq_inv in H11 as (c13 & s13 & c14 & H13 & H & ->).
      pose proof (expr_tracks d (get_slot sl) e false [] _ _ _ D9 H13) as K. pose proof (good_end _ _ _ _ _ D9 K).
      eapply good_app; [exact K|]. pose proof H as H'. apply gen_exit_inv in H' as [-> _]. eapply exit_good; eassumption.
    - unfold gen_constructor in H11.
      apply seq_inv in H11 as (e1 & t1 & e2 & A1 & H & ->). apply ins_inv in A1 as [-> ->].
      apply seq_inv in H as (e3 & t3 & e4 & A2 & H & ->). ginv1 A2. subst.
      apply seq_inv in H as (e5 & t5 & e6 & A3 & H & ->). apply ins_inv in A3 as [-> ->].
      apply seq_inv in H as (e7 & t7 & e8 & A4 & H & ->). apply ins_inv in A4 as [-> ->].
      apply seq_inv in H as (e9 & t9 & e10 & A5 & H & ->). apply gc_map_inv in A5 as ((gl & ->) & X5 & _).
      apply seq_inv in H as (e11 & t11 & e12 & A6 & H & ->).
      pose proof H as H'. apply gen_exit_inv in H' as [-> _].
      assert (M : forall a, d <= a -> good d [] a e11 a /\ g_sp t11 = g_sp t9).
      { intros a Ha. destruct tag; [|exact (fields_good d [] a _ _ _ _ _ _ A6 Ha)].
        apply seq_inv in A6 as (e13 & t13 & e14 & A7 & A6 & ->). ginv1 A7. subst. apply (fields_good d [] a) in A6 as [Q1 Q2]; [|exact Ha].
        split; [|exact Q2]. cbn [app]. eapply good_cons; [reflexivity|cbn; lia|reflexivity|exact Q1]. }
      destruct SL as (_ & _ & Q & _). rewrite (proj2 (M d (Z.le_refl _))), X5, Q, E9, D0.
      cbn [app]. repeat (eapply good_cons; [cbn [next kept]; rewrite ?Hev; reflexivity|lia|reflexivity|]).
      eapply good_app; [apply M; lia|eapply exit_good; [exact H|lia]]. }
  set (t := EFlush :: EData :: map_data (g_maps s11)). exists (c9 ++ c11 ++ t).
  pose proof (good_end _ _ _ _ _ (Z.le_refl _) K) as Hend. pose proof (good_app _ _ _ _ _ _ _ K9 K) as (S & J & A).
  destruct (maps_scan (g_sp s11) (g_maps s11) (Gone (g_sp s11)) (or_intror eq_refl)) as (y & Y1 & Y2 & Y3).
  exists y. split; [reflexivity|]. rewrite app_assoc. split; [|split].
  - rewrite scan_app, S. cbn [t scan next]. exact Y1.
  - intros l k. rewrite !(gather_app _ (c9 ++ c11)), S, !in_app_iff. intros [H|H].
    + destruct (J _ _ H) as [G|[G|[]]]; auto.
    + cbn in H. now apply Y2 in H.
  - apply above_app; [exact A|]. rewrite S. cbn [t above next level]. auto.
Qed.

(* ------------------------------------------------------------------- the machine *)

Section Run.
Variable laddr : label -> Z.
Variable mext : string -> regs * memory -> option (regs * memory).
Variable mskips : string -> bool.
Variable addr : nat -> Z.
Variable place : Z -> option nat.
Variable P : list event.
Local Notation STEP := (step laddr mext mskips addr place P).

Definition leaves (e : event) : bool :=
  match e with EIns ret _ | EIns call _ => true | EIns jmp [OMem _] => true | _ => false end.

(** One step of a function whose code lies from [n] to [n'].  A call is one step:
    whatever is called, it may change registers, memory and flags; it comes back behind
    the call, or behind the word with the address of the GC map that follows the call,
    with the stack and frame pointers it was called with. *)
Inductive fn_step (n n' : nat) : mstate -> mstate -> Prop :=
| fn_own s s' e : (n <= pc s < n')%nat -> nth_error P (pc s) = Some e -> leaves e = false -> STEP s = Some s' -> fn_step n n' s s'
| fn_call p rs m fl q rs' m' fl' ops : (n <= p < n')%nat -> nth_error P p = Some (EIns call ops) ->
    q = S p \/ q = S (S p) /\ (exists l, nth_error P (S p) = Some (EAddr l)) ->
    rs' rsp = rs rsp -> rs' rbp = rs rbp ->
    fn_step n n' (MState p (rs, m, fl)) (MState q (rs', m', fl')).
Inductive fn_run (n n' : nat) : mstate -> mstate -> Prop :=
| fn_refl s : fn_run n n' s s
| fn_more s s' s'' : fn_run n n' s s' -> fn_step n n' s' s'' -> fn_run n n' s s''.

(** The stack pointer as the depth says; [b] is the frame pointer of the function, the
    depth is counted from [t]. *)
Definition at_depth (b t : Z) (x : depth) (rs : regs) : Prop :=
  match x with
  | Inside d | Gone d => rs rbp = b /\ rs rsp = word (t - 8 * d)
  | Leaving d k => rs rsp = word (b - 8 * k)
  end.

Lemma write_keeps c o v c' : kept o = true -> write c o v = Some c' -> fst (fst c') rsp = fst (fst c) rsp /\ fst (fst c') rbp = fst (fst c) rbp.
Proof.
  destruct c as [[rs m] fl]. intros K H. destruct o; try discriminate; cbn [write] in H.
  - injection H as <-. destruct r; cbn in *; try discriminate; auto.
  - destruct (_ && _); [|discriminate]. injection H as <-. auto.
Qed.
Lemma arith_keeps c o o' f c' : kept o' = true -> arith c o o' f = Some c' -> fst (fst c') rsp = fst (fst c) rsp /\ fst (fst c') rbp = fst (fst c) rbp.
Proof.
  unfold arith. intros K H. destruct (read c o); [|discriminate]. destruct (read c o'); [|discriminate].
  destruct (write c o' _) as [[[rs m] fl]|] eqn:E; [|discriminate]. injection H as <-. apply (write_keeps _ _ _ _ K) in E. exact E.
Qed.
Lemma word_off b d z : word (word (b - 8 * d) + z) = word (b - 8 * d + z).
Proof. unfold word. rewrite Zplus_mod_idemp_l. reflexivity. Qed.
Ltac brute := repeat (cbn [kept] in *; match goal with
  | H : None = Some _ |- _ => discriminate H
  | H : Some _ = Some _ |- _ => injection H as <-
  | H : (let '(_, _) := _ in _) = Some _ |- _ => cbn in H
  | H : (if ?x then _ else _) = Some _ |- _ => destruct x eqn:?
  | H : match ?x with _ => _ end = Some _ |- _ => destruct x eqn:?
  end); try solve [match goal with G : forall rs', _ |- _ => apply G; [reflexivity|]; repeat match goal with K : match ?r with _ => _ end = true |- _ => is_var r; destruct r; try discriminate K end; cbn; auto end].
Lemma exec_depth b t d i ops y rs m fl c' : next (Inside d) (EIns i ops) = Some y -> at_depth b t (Inside d) rs -> leaves (EIns i ops) = false ->
  exec laddr i ops (rs, m, fl) = Some c' -> at_depth b t y (fst (fst c')).
Proof.
  intros N [Hb Hs] L H.
  assert (G : forall rs', y = Inside d -> rs' rsp = rs rsp /\ rs' rbp = rs rbp -> at_depth b t y rs').
  { intros rs' -> [G1 G2]. split; congruence. }
  destruct i; destruct ops as [|o1 [|o2 [|o3 ops]]]; cbn [next] in N; cbn [leaves] in L; try discriminate.
  all: try (cbn [exec] in H; destruct o1; try discriminate; destruct o2; discriminate).
  all: try solve [destruct (kept o2) eqn:K; [|destruct o1; discriminate]; injection N as <-; cbn [exec] in H; destruct (read _ _); [|discriminate];
    apply (write_keeps _ _ _ _ K) in H; auto].
  all: try solve [destruct (kept o2) eqn:K; [|destruct o1; discriminate]; injection N as <-; cbn [exec] in H;
    apply (arith_keeps _ _ _ _ _ K) in H; auto].
  all: cbn [exec] in H.
  all: try solve [destruct o1; try discriminate; destruct o2; try discriminate; brute].
  all: try solve [destruct o1; try discriminate; brute].
  all: try solve [brute].
  all: try solve [destruct o1 as [|[]| | | | |]; try discriminate; cbn in H, N; injection N as <-; destruct fl as [[]|]; [|discriminate]; injection H as <-; apply G; [reflexivity|cbn; auto]].
  - destruct o1; try discriminate. destruct (kept _) eqn:K; [|discriminate]. injection N as <-. injection H as <-.
    assert (E : word (t - 8 * (d - 1)) = word (rs rsp + 8)) by (rewrite Hs, word_off; f_equal; lia).
    destruct r; try discriminate K; (split; [exact Hb|cbn; congruence]).
  - destruct (read _ _); [|discriminate]. injection N as <-. injection H as <-. cbn. split; [exact Hb|].
    rewrite Hs. unfold Z.sub at 1. rewrite word_off. f_equal. lia.
  - destruct (kept o2) eqn:K.
    + apply (arith_keeps _ _ _ _ _ K) in H. apply G; [|exact H].
      destruct o2 as [[]| | | | | |]; try discriminate K; destruct o1; congruence.
    + destruct o2 as [[]| | | | | |]; try discriminate K; destruct o1 as [| |z| | | |]; try discriminate N.
      destruct (Z.eqb_spec z 8) as [->|]; [|discriminate N]. injection N as <-. unfold arith in H. cbn in H. injection H as <-.
      split; [exact Hb|]. cbn. rewrite Hs. change (word 8) with 8. rewrite word_off. f_equal. lia.
  - destruct (kept o2) eqn:K.
    + apply (arith_keeps _ _ _ _ _ K) in H. apply G; [|exact H].
      destruct o2 as [[]| | | | | |]; try discriminate K; destruct o1; congruence.
    + destruct o2 as [[]| | | | | |]; try discriminate K; destruct o1 as [| |z| | | |]; try discriminate N.
      destruct (Z.eqb_spec z 8) as [->|]; [|discriminate N]. injection N as <-. unfold arith in H. cbn in H. injection H as <-.
      split; [exact Hb|]. cbn. rewrite Hs. change (word 8) with 8. unfold Z.sub at 1. rewrite word_off. f_equal; lia.
  - injection N as <-. injection H as <-. cbn. rewrite Hb. f_equal; lia.
Qed.
Lemma exec_leaving b t d k i ops y rs m fl c' : next (Leaving d k) (EIns i ops) = Some y -> at_depth b t (Leaving d k) rs -> leaves (EIns i ops) = false ->
  exec laddr i ops (rs, m, fl) = Some c' -> at_depth b t y (fst (fst c')).
Proof.
  intros N Hs L H. cbn [next] in N. cbn [at_depth] in Hs.
  destruct i; try discriminate N; destruct ops as [|o1 [|o2 [|o3 ops]]]; try discriminate N; try discriminate L;
    destruct o1 as [r1| | | | | |]; try discriminate N; try (destruct r1; discriminate N); try discriminate L.
  - destruct r1; try discriminate N. injection N as <-. injection H as <-. cbn. rewrite Hs, word_off. f_equal. lia.
  - destruct o2 as [r2| | | | | |]; try discriminate N. destruct r2; try discriminate N. injection N as <-.
    apply arith_keeps in H as [H _]; [|reflexivity]. cbn [at_depth]. rewrite H. exact Hs.
  - destruct o2 as [r2| | | | | |]; try discriminate N; destruct r2; discriminate N.
Qed.

Lemma scan_at c : forall x z j e, scan x c = Some z -> nth_error c j = Some e ->
  exists y y', scan x (firstn j c) = Some y /\ next y e = Some y' /\ scan x (firstn (S j) c) = Some y'.
Proof.
  induction c as [|a c IH]; intros x z j e H N; [destruct j; discriminate|]. cbn [scan] in H. destruct (next x a) as [x1|] eqn:E; [|discriminate].
  destruct j as [|j].
  - injection N as ->. exists x, x1. cbn. rewrite E. auto.
  - destruct (IH _ _ _ _ H N) as (y & y' & A & B & C). exists y, y'. cbn [firstn scan]. rewrite E. auto.
Qed.
Lemma gather_at f c : forall x y j e lk, scan x (firstn j c) = Some y -> nth_error c j = Some e -> In lk (f y e) -> In lk (gather f x c).
Proof.
  induction c as [|a c IH]; intros x y j e lk H N I; [destruct j; discriminate|]. destruct j as [|j].
  - injection N as ->. injection H as ->. cbn [gather]. apply in_or_app. now left.
  - cbn [firstn scan] in H. cbn [gather]. destruct (next x a) as [x1|] eqn:E; [|discriminate]. apply in_or_app. right. eauto.
Qed.
Lemma label_at c : forall x l k, In (l, k) (gather label_here x c) -> exists j y,
  nth_error c j = Some (ELabel l) /\ scan x (firstn j c) = Some y /\ (y = Inside k \/ y = Gone k).
Proof.
  induction c as [|a c IH]; intros x l k H; [destruct H|]. cbn [gather] in H. apply in_app_or in H as [H|H].
  - exists 0%nat, x. destruct x, a; cbn in H; try contradiction; destruct H as [H|[]]; injection H as -> ->; cbn; auto.
  - destruct (next x a) as [x1|] eqn:E; [|destruct H]. destruct (IH _ _ _ H) as (j & y & A & B & C).
    exists (S j), y. cbn [nth_error firstn scan]. rewrite E. auto.
Qed.

Section Function.
Variables (n : nat) (fd : fundef) (b : list event) (z : depth).
Let c := EFn (f_name fd) :: EIns enter [OImm (rounded fd * 8); OImm 0] :: b.
Let n' := (n + List.length c)%nat.
Hypothesis Hc : code_at P n c.
Hypothesis Hscan : scan (Inside (rounded fd)) b = Some z.
Hypothesis Hjump : forall l k, In (l, k) (gather jump_here (Inside (rounded fd)) b) ->
  In (l, k) (gather label_here (Inside (rounded fd)) b) \/ l = LIoob.
Hypothesis Hlab : forall j l, nth_error c j = Some (ELabel l) -> find_label P l = Some (n + j)%nat.
Hypothesis Hioob : forall p, find_label P LIoob = Some p -> ~ (n <= p < n')%nat.
Variable rs0 : regs.
Let B := word (rs0 rsp - 8).

Definition tracked (s : mstate) : Prop :=
  let rs := fst (fst (mcore s)) in
  (pc s = n /\ rs = rs0) \/ (pc s = S n /\ rs = rs0) \/
  (exists j y, pc s = (n + 2 + j)%nat /\ (j <= List.length b)%nat /\ scan (Inside (rounded fd)) (firstn j b) = Some y /\ at_depth B B y rs) \/
  ~ (n <= pc s < n')%nat.

Lemma body_at j e : nth_error P (n + 2 + j) = Some e -> (j < List.length b)%nat -> nth_error b j = Some e.
Proof.
  intros H Hj. destruct (nth_error b j) as [e'|] eqn:E; [|apply nth_error_None in E; lia].
  rewrite <- H. symmetry. replace (n + 2 + j)%nat with (n + S (S j))%nat by lia. apply Hc. exact E.
Qed.
Lemma tracked_step s s' : tracked s -> fn_step n n' s s' -> tracked s'.
Proof.
  intros T H. pose proof (Hc 0%nat _ eq_refl) as F0. rewrite Nat.add_0_r in F0. pose proof (Hc 1%nat _ eq_refl) as F1. replace (n + 1)%nat with (S n) in F1 by lia.
  assert (Len : n' = (n + 2 + List.length b)%nat) by (unfold n', c; cbn; lia).
  destruct T as [(T1 & T2)|[(T1 & T2)|[(j & y & T1 & T2 & T3 & T4)|T]]].
  - right. left. destruct H as [s s' e R N L ST|p rs m fl q rs' m' fl' ops R N Q A1 A2]; [|cbn in T1; subst p; rewrite F0 in N; discriminate].
    destruct s as [p [[rs m] fl]]. cbn in T1, T2, N. subst p. cbn [step] in ST. rewrite F0 in ST. injection ST as <-. auto.
  - right. right. left. destruct H as [s s' e R N L ST|p rs m fl q rs' m' fl' ops R N Q A1 A2]; [|cbn in T1; subst p; rewrite F1 in N; discriminate].
    destruct s as [p [[rs m] fl]]. cbn in T1, T2, N. subst p. cbn [step] in ST. rewrite F1 in ST. cbn [exec] in ST.
    destruct (push (rs, m, fl) (rs rbp)) as [[rs1 m1] fl1] eqn:E. unfold push in E. injection E as <- <- <-. cbn in ST.
    destruct (_ && _) in ST; [|discriminate]. injection ST as <-.
    exists 0%nat, (Inside (rounded fd)). cbn [pc mcore fst]. split; [lia|]. split; [lia|]. split; [reflexivity|].
    unfold B. subst. cbn. split; [reflexivity|]. f_equal. lia.
  - destruct H as [s s' e R N L ST|p rs m fl q rs' m' fl' ops R N Q A1 A2].
    + rewrite T1 in N. pose proof (body_at j e N ltac:(lia)) as Nb.
      destruct (scan_at _ _ _ _ _ Hscan Nb) as (y1 & y2 & E1 & E2 & E3). rewrite T3 in E1. injection E1 as <-.
      assert (Step : forall rs' m' fl', at_depth B B y2 rs' -> tracked (MState (S (pc s)) (rs', m', fl'))).
      { intros rs' m' fl' A. right. right. left. exists (S j), y2. cbn [pc mcore fst]. split; [lia|].
        split; [apply nth_error_Some; congruence|]. auto. }
      destruct s as [p [[rs m] fl]]. cbn [pc mcore fst] in *. subst p. cbn [step] in ST. rewrite N in ST.
      assert (Jump : forall l d, jump_here y e = [(l, d)] -> goto (rs, m, fl) (find_label P l) = Some s' -> at_depth B B (Inside d) rs -> tracked s').
      { intros l d J G A. destruct (find_label P l) as [q|] eqn:Q; [|discriminate]. injection G as <-.
        destruct (Hjump l d) as [K|K].
        - eapply gather_at; [exact T3|exact Nb|rewrite J; now left].
        - apply label_at in K as (j' & y' & K1 & K2 & K3). assert (Some q = Some (n + 2 + j')%nat).
          { rewrite <- Q. rewrite (Hlab (S (S j')) l K1). f_equal. lia. }
          injection H as ->. right. right. left. exists j', y'. cbn [pc mcore fst]. split; [lia|].
          split; [assert (j' < List.length b)%nat by (apply nth_error_Some; congruence); lia|]. split; [exact K2|].
          destruct K3 as [-> | ->]; exact A.
        - subst l. right. right. right. exact (Hioob _ Q). }
      destruct e as [i ops|l|f|l| | | |].
      * assert (Ex : forall c', exec laddr i ops (rs, m, fl) = Some c' -> s' = MState (S (n + 2 + j)) c' -> tracked s').
        { intros [[rs1 m1] fl1] X ->. apply Step. change rs1 with (fst (fst (rs1, m1, fl1))). destruct y as [d|d k|d].
          - eapply exec_depth; eassumption.
          - eapply exec_leaving; eassumption.
          - discriminate E2. }
        destruct i; try discriminate L; try (destruct (exec _ _ _ _) as [c'|]; [|discriminate]; injection ST as <-; exact (Ex _ eq_refl eq_refl)).
        -- destruct ops as [|[| | | |a|l|] [|]]; try discriminate L; try discriminate ST.
           destruct y; try discriminate E2. eapply Jump; [reflexivity|exact ST|exact T4].
        -- destruct ops as [|[| | | |a|l|] [|]]; try discriminate ST. destruct fl as [[u v]|]; [|discriminate].
           destruct y; try discriminate E2. injection E2 as <-.
           destruct (u =? v); [injection ST as <-; now apply Step|]. eapply Jump; [reflexivity|exact ST|exact T4].
        -- destruct ops as [|[| | | |a|l|] [|]]; try discriminate ST. destruct fl as [[u v]|]; [|discriminate].
           destruct y; try discriminate E2. injection E2 as <-.
           destruct (v <=? u); [|injection ST as <-; now apply Step]. eapply Jump; [reflexivity|exact ST|exact T4].
      * injection ST as <-. apply Step. destruct y; try discriminate E2; injection E2 as <-; exact T4.
      * destruct y; discriminate E2.
      * discriminate ST.
      * injection ST as <-. apply Step. destruct y; try discriminate E2; injection E2 as <-; exact T4.
      * discriminate ST.
      * discriminate ST.
      * discriminate ST.
    + cbn [pc mcore fst] in *. subst p. pose proof (body_at j _ N ltac:(lia)) as Nb.
      destruct (scan_at _ _ _ _ _ Hscan Nb) as (y1 & y2 & E1 & E2 & E3). rewrite T3 in E1. injection E1 as <-.
      assert (E : exists d, y = Inside d /\ y2 = Inside d).
      { destruct y as [d|d k|d]; try discriminate E2. exists d. destruct ops as [|o [|]]; try discriminate E2. cbn [next] in E2.
        destruct (_ =? _); [|discriminate]. injection E2 as <-. auto. }
      destruct E as (d & -> & ->).
      assert (A : at_depth B B (Inside d) rs') by (destruct T4; split; congruence).
      destruct Q as [->|[-> [l Ql]]].
      * right. right. left. exists (S j), (Inside d). cbn [pc mcore fst]. split; [lia|]. split; [lia|]. auto.
      * destruct (Nat.eq_dec (S j) (List.length b)) as [Hl|Hl].
        -- right. right. right. cbn [pc]. lia.
        -- replace (S (n + 2 + j)) with (n + 2 + S j)%nat in Ql by lia. pose proof (body_at _ _ Ql ltac:(lia)) as Nl.
           destruct (scan_at _ _ _ _ _ Hscan Nl) as (y1 & y2 & G1 & G2 & G3). rewrite E3 in G1. injection G1 as <-. injection G2 as <-.
           right. right. left. exists (S (S j)), (Inside d). cbn [pc mcore fst]. split; [lia|]. split; [lia|]. auto.
  - destruct H; cbn in T; tauto.
Qed.
Lemma tracked_run s s' : fn_run n n' s s' -> tracked s -> tracked s'.
Proof. induction 1; intros T; [exact T|]. eapply tracked_step; [apply IHfn_run; exact T|eassumption]. Qed.

Lemma word_off' x y : word (word x + y) = word (x + y).
Proof. unfold word. now rewrite Zplus_mod_idemp_l. Qed.
Lemma word_mod16 x : word x mod 16 = x mod 16.
Proof. unfold word. change W with (16 * 1152921504606846976). rewrite Z.rem_mul_r by lia. rewrite Z.mul_comm, Z_mod_plus_full. apply Zmod_mod. Qed.

(** The stack pointer at the calls and at the exits of a function. *)
Lemma stack_at m fl s' rs' m' fl' e : fn_run n n' (MState n (rs0, m, fl)) s' -> mcore s' = (rs', m', fl') -> (n <= pc s' < n')%nat ->
  nth_error P (pc s') = Some e ->
  match e with
  | EIns call _ => rs0 rsp mod 16 = 8 -> rs' rsp mod 16 = 0
  | EIns ret _ => rs' rsp = word (rs0 rsp)
  | EIns jmp [OMem _] => rs' rsp = word (rs0 rsp + 8)
  | _ => True
  end.
Proof.
  intros H Ec R N. destruct (leaves e) eqn:L; [|destruct e as [[] ops| | | | | | |]; try exact I; try discriminate L; destruct ops as [|[] [|]]; try exact I; discriminate L].
  apply tracked_run in H; [|left; auto].
  pose proof (Hc 0%nat _ eq_refl) as F0. rewrite Nat.add_0_r in F0. pose proof (Hc 1%nat _ eq_refl) as F1. replace (n + 1)%nat with (S n) in F1 by lia.
  assert (Len : n' = (n + 2 + List.length b)%nat) by (unfold n', c; cbn; lia).
  destruct H as [(T1 & T2)|[(T1 & T2)|[(j & y & T1 & T2 & T3 & T4)|T]]].
  - rewrite T1, F0 in N. injection N as <-. discriminate L.
  - rewrite T1, F1 in N. injection N as <-. discriminate L.
  - rewrite Ec in T4. cbn [fst] in T4. rewrite T1 in N. pose proof (body_at _ _ N ltac:(lia)) as Nb.
    destruct (scan_at _ _ _ _ _ Hscan Nb) as (y1 & y2 & E1 & E2 & E3). rewrite T3 in E1. injection E1 as <-.
    destruct e as [i ops| | | | | | |]; try discriminate L. destruct i; try discriminate L.
    + destruct ops as [|[] [|]]; try exact I. destruct y as [d|d k|d]; try discriminate E2. cbn [next] in E2.
      destruct (Z.eqb_spec k (-2)) as [->|]; [|discriminate]. cbn [at_depth] in T4. rewrite T4. unfold B. unfold Z.sub at 1. rewrite word_off'. f_equal; lia.
    + destruct y as [d|d k|d]; try discriminate E2; cbn [next] in E2; destruct ops; try discriminate E2.
      destruct (Z.eqb_spec k (-1)) as [->|]; [|discriminate]. cbn [at_depth] in T4. rewrite T4. unfold B. unfold Z.sub at 1. rewrite word_off'. f_equal; lia.
    + destruct y as [d|d k|d]; try discriminate E2. destruct ops as [|o [|]]; try discriminate E2. cbn [next] in E2.
      destruct (Z.eqb_spec (d mod 2) 0) as [Hd|]; [|discriminate]. destruct T4 as [_ T4]. intros Ha. rewrite T4, word_mod16.
      unfold B. rewrite Zminus_mod, word_mod16. rewrite <- Zminus_mod. lia.
  - tauto.
Qed.

(** Values are only pushed below the slots of the variables. *)
Hypothesis Habove : above (rounded fd) (Inside (rounded fd)) b.
Lemma push_at m fl s' rs' m' fl' o : fn_run n n' (MState n (rs0, m, fl)) s' -> mcore s' = (rs', m', fl') -> (n <= pc s' < n')%nat ->
  nth_error P (pc s') = Some (EIns pushq o) ->
  rs' rbp = B /\ exists d, rounded fd <= d /\ rs' rsp = word (B - 8 * d).
Proof.
  intros H Ec R N. apply tracked_run in H; [|left; auto].
  pose proof (Hc 0%nat _ eq_refl) as F0. rewrite Nat.add_0_r in F0. pose proof (Hc 1%nat _ eq_refl) as F1. replace (n + 1)%nat with (S n) in F1 by lia.
  assert (Len : n' = (n + 2 + List.length b)%nat) by (unfold n', c; cbn; lia).
  destruct H as [(T1 & T2)|[(T1 & T2)|[(j & y & T1 & T2 & T3 & T4)|T]]].
  - rewrite T1, F0 in N. discriminate.
  - rewrite T1, F1 in N. discriminate.
  - rewrite Ec in T4. cbn [fst] in T4. rewrite T1 in N. pose proof (body_at _ _ N ltac:(lia)) as Nb.
    destruct (scan_at _ _ _ _ _ Hscan Nb) as (y1 & y2 & E1 & E2 & E3). rewrite T3 in E1. injection E1 as <-.
    pose proof (scan_level _ _ _ _ (Z.le_refl _ : rounded fd <= level (Inside (rounded fd))) (above_firstn _ j _ _ Habove) T3) as Hl.
    destruct y as [d|d k|d]; try discriminate E2. destruct T4 as [T4 T5]. split; [exact T4|]. exists d. split; [exact Hl|exact T5].
  - tauto.
Qed.
End Function.
End Run.

(* --------------------------------------------------------------- a whole program *)

Lemma fn_no_ioob alloc fd s c s' j : gen_fn alloc fd s = Some (c, s') -> nth_error c j <> Some (ELabel LIoob).
Proof.
  intros H N. apply chunk_fn in H as [_ _ _ k _ _ _]. specialize (k LIoob). cbn in k.
  apply nth_error_In in N. clear - k N. induction c as [|e c IH]; [destruct N|]. change (e :: c) with ([e] ++ c) in k.
  rewrite lcount_app in k. destruct N as [->|N]; [cbn in k; lia|]. apply IH; [lia|exact N].
Qed.

Lemma find_ioob P : forall k i, find_label_from k P LIoob = Some i -> (k <= i)%nat /\ nth_error P (i - k) = Some (ELabel LIoob).
Proof.
  induction P as [|e P IH]; intros k i H; [discriminate|].
  assert (Hr : find_label_from (S k) P LIoob = Some i -> (k <= i)%nat /\ nth_error (e :: P) (i - k) = Some (ELabel LIoob)).
  { intros H'. apply IH in H' as [H1 H2]. split; [lia|]. replace (i - k)%nat with (S (i - S k)) by lia. exact H2. }
  destruct e; cbn [find_label_from] in H; auto. destruct (label_eqb LIoob l) eqn:E; [|auto]. injection H as <-.
  rewrite Nat.sub_diag. destruct l; try discriminate. split; [lia|reflexivity].
Qed.

(** Every function of a program.  [n] and [n'] are the ends of its code. *)
Lemma program_stack unq alloc ioob entry ts full P sf fd :
  gen_program unq alloc ioob entry ts full start = Some (P, sf) ->
  NoDup (map f_name full ++ routine_names) -> NoDup (map_labels ts) -> In fd full ->
  exists n n', find_fn P (f_name fd) = Some n /\
  forall laddr mext mskips addr place rs0 m fl s' rs' m' fl' e,
    fn_run laddr mext mskips addr place P n n' (MState n (rs0, m, fl)) s' -> mcore s' = (rs', m', fl') -> (n <= pc s' < n')%nat ->
    nth_error P (pc s') = Some e ->
    match e with
    | EIns call _ => rs0 rsp mod 16 = 8 -> rs' rsp mod 16 = 0
    | EIns ret _ => rs' rsp = word (rs0 rsp)
    | EIns jmp [OMem _] => rs' rsp = word (rs0 rsp + 8)
    | EIns pushq _ => rs' rbp = word (rs0 rsp - 8) /\ exists d, rounded fd <= d /\ rs' rsp = word (word (rs0 rsp - 8) - 8 * d)
    | _ => True
    end.
Proof.
  intros Hg Hn Hm Hin. destruct (whole_code _ _ _ _ _ _ _ _ Hg fd Hin) as (s & c & s1 & n & G & C & _).
  pose proof (whole_label _ _ _ _ _ _ _ _ Hg Hm) as WL. pose proof (whole_fn _ _ _ _ _ _ _ _ Hg Hn) as WF.
  destruct (fn_scan _ _ _ _ _ G) as (b & y & -> & Sc & J & Ab).
  exists n, (n + List.length (EFn (f_name fd) :: EIns enter [OImm (rounded fd * 8); OImm 0] :: b))%nat.
  split; [apply WF; eapply code_at_in; exact C|].
  assert (HL : forall j l, nth_error (EFn (f_name fd) :: EIns enter [OImm (rounded fd * 8); OImm 0] :: b) j = Some (ELabel l) -> find_label P l = Some (n + j)%nat).
  { intros j l Hj. apply WL. now apply C. }
  assert (HI : forall p, find_label P LIoob = Some p -> ~ (n <= p < n + List.length (EFn (f_name fd) :: EIns enter [OImm (rounded fd * 8); OImm 0] :: b))%nat).
  { intros p Hp Hr. pose proof (proj2 (find_ioob P 0%nat p Hp)) as Np. rewrite Nat.sub_0_r in Np.
    destruct (nth_error (EFn (f_name fd) :: EIns enter [OImm (rounded fd * 8); OImm 0] :: b) (p - n)) as [e'|] eqn:E.
    + pose proof (C _ _ E) as E'. replace (n + (p - n))%nat with p in E' by lia. rewrite Np in E'. injection E' as <-.
      exact (fn_no_ioob _ _ _ _ _ _ G E).
    + apply nth_error_None in E. lia. }
  intros laddr mext mskips addr place rs0 m fl s' rs' m' fl' e H1 H2 H3 H4.
  assert (Push : forall o, e = EIns pushq o -> rs' rbp = word (rs0 rsp - 8) /\ exists d, rounded fd <= d /\ rs' rsp = word (word (rs0 rsp - 8) - 8 * d)).
  { intros o ->. exact (push_at laddr mext mskips addr place P n fd b y C Sc J HL HI rs0 Ab m fl s' rs' m' fl' o H1 H2 H3 H4). }
  pose proof (stack_at laddr mext mskips addr place P n fd b y C Sc J HL HI rs0 m fl s' rs' m' fl' e H1 H2 H3 H4) as K.
  destruct e as [[] o| | | | | | |]; try exact K. exact (Push o eq_refl).
Qed.
