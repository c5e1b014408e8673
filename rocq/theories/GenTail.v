(** What functions that return nothing leave in rax: the value of the expression their
    body ends with. *)
From Coq Require Import ZArith List Bool String Lia.
From Verif Require Import Ints X86 GenModel GenSpec GenMem GenStatic GenSlots GenExec GenCorrect.
Import ListNotations.
Open Scope Z_scope.
Local Arguments Z.mul : simpl never. Local Arguments Z.add : simpl never. Local Arguments Z.sub : simpl never.
Local Arguments Z.of_nat : simpl never.
Local Arguments word : simpl never. Local Arguments rset : simpl never. Local Arguments load : simpl never.
Local Arguments store : simpl never.

Lemma bind_val_id {A} (r : res A) : bind r Val = r.
Proof. destruct r; reflexivity. Qed.

Section Tail.
Variable laddr : label -> Z.
Variable mext : string -> regs * memory -> option (regs * memory).
Variable mskips : string -> bool.
Variable addr : nat -> Z.
Variable place : Z -> option nat.
Variable P : list event.
Variable heap : Z -> bool.
Variable lit : list Z -> Z.
Variable fun_addr : string -> Z.
Variable fun_at : Z -> option string.
Variable extern abstract : string -> list value -> memory -> option (value * memory).
Variable alloc : string.
Variable prog : list fundef.
Variable lits : list (list Z).
Variable lo hi room F : Z.

Notation STEPS := (steps laddr mext mskips addr place P).
Notation ENDS := (ends P STEPS heap).
Notation EVAL := (eval heap lit fun_addr fun_at extern abstract alloc prog).
Notation EXEC := (exec_stmt heap lit fun_addr fun_at extern abstract alloc prog).
Notation INV := (inv heap lo hi).
Notation SAME := (same hi).
Notation LOW d := (lo + room + Z.of_nat d * F).

(** The value a list of statements ends with: that of its last statement if that is an
    expression, that of the chosen branch if it is a conditional; a list which ends
    otherwise, or returns, has none. *)
Fixpoint tail_list (n d : nat) (r : env) (h : memory) (l : list stmt) {struct n} : res (value * memory) :=
  match n with
  | O => NoFuel
  | S n =>
    match l with
    | [] => Stuck
    | [SExpr e] => EVAL n d r h e
    | [SIf bs] => tail_if n d r h bs
    | st :: rest =>
        bind (EXEC n d r h st) (fun '(o, r, h) =>
          match o with ONormal => tail_list n d r h rest | OReturn _ => Stuck end)
    end
  end
with tail_if (n d : nat) (r : env) (h : memory) (bs : list (option expr * list stmt)) {struct n} : res (value * memory) :=
  match n with
  | O => NoFuel
  | S n =>
    match bs with
    | [(None, b)] => tail_list n d r h b
    | (Some c, b) :: rest =>
        need (EVAL n d r h c) (fun w h =>
          match as_bool w with
          | None => Stuck
          | Some true => tail_list n d r h b
          | Some false => tail_if n d r h rest
          end)
    | _ => Stuck
    end
  end.
(** The value a call of a function leaves. *)
Definition tail_run (n d : nat) (fd : fundef) (vs : list value) (h : memory) : res (value * memory) :=
  match d, f_body fd with
  | S d, BBlock b => tail_list n d (bind_params (f_params fd) vs) h b
  | _, _ => NoFuel
  end.

Hypothesis L : linked laddr mext mskips addr place P heap lit fun_addr fun_at extern abstract alloc prog lits
  lo hi room.
Hypothesis HF0 : 0 <= F.
Hypothesis HF : forall fd, In fd prog -> safe_fun fd = true /\ frame_bytes fd <= F.
Notation ALLN := (all _ _ _ _ _ _ _ _ _ _ _ _ _ _ _ _ _ _ _ L HF0 HF).
Notation LITS := (lits_ok lits).
Notation RETP := (ret_place place).

Ltac len := repeat (progress (rewrite ?app_length; cbn [List.length])); lia.
Ltac at_code Hc :=
  lazymatch type of Hc with
  | code_at _ ?p _ => lazymatch goal with |- ENDS (MState ?q _) _ _ => replace q with p by len end
  | nth_error _ ?p = _ => lazymatch goal with |- ENDS (MState ?q _) _ _ => replace q with p by len end
  end.
Ltac geff G := let A := fresh "A" in let B := fresh "B" in let C := fresh "C" in
  pose proof (gen_expr_eff _ _ _ _ _ _ G) as (A & B & C); cbn in A, B, C.
Ltac one_step Q := eapply ends_steps; [apply steps_one; cbn [step]; rewrite Q; reflexivity|].

Definition tail_post (slot : nat -> Z) (T B : Z) (n' : nat) (m : memory) (a : value * memory) (st' : mstate) : Prop :=
  let '(v, h') := a in
  exists rs' m' fl' r', st' = MState n' (rs', m', fl') /\ result_in v rs' /\ SAME B m m' /\ INV slot T B T [] r' h' rs' m'.
Lemma tail_post_same slot T B n' m m1 a st : B <= hi -> SAME B m m1 -> tail_post slot T B n' m1 a st -> tail_post slot T B n' m a st.
Proof.
  intros HB Hs. destruct a as [v h']. intros (rs' & m' & fl' & r' & H1 & H2 & H3 & H4). exists rs', m', fl', r'.
  split; [exact H1|]. split; [exact H2|]. split; [|exact H4]. eapply same_trans; [|exact Hs|exact H3]. lia.
Qed.

Definition TL_ok (N : nat) : Prop :=
  forall d slot ext T B r h s c s' n q rs m fl l,
  gen_list slot ext l s = Some (c, s') -> code_at P n c -> LITS s' -> safe_list l = true ->
  in_use_types s = [] -> g_sp s = T -> vars_ok slot (list_vars l) ->
  INV slot T B T [] r h rs m -> LOW d + 8 * pushes_list l <= rs rsp -> RETP ext m B q ->
  ENDS (MState n (rs, m, fl)) (tail_list N d r h l) (tail_post slot T B (n + List.length c) m).
Definition TI_ok (N : nat) : Prop :=
  forall d slot ext T B r h s c s' n q rs m fl ex bs,
  gen_branches slot ext ex bs s = Some (c, s') -> code_at P n c -> nth_error P (n + List.length c) = Some (ELabel ex) ->
  LITS s' -> safe_branches bs = true ->
  in_use_types s = [] -> g_sp s = T -> vars_ok slot (stmt_vars (SIf bs)) ->
  INV slot T B T [] r h rs m -> LOW d + 8 * pushes_branches bs <= rs rsp -> RETP ext m B q ->
  ENDS (MState n (rs, m, fl)) (tail_if N d r h bs) (tail_post slot T B (n + List.length c) m).

Lemma TL_block N d slot ext T B r h s c s' n q rs m fl l : TL_ok N ->
  gen_block slot ext l s = Some (c, s') -> code_at P n c -> LITS s' -> safe_list l = true ->
  in_use_types s = [] -> g_sp s = T -> vars_ok slot (list_vars l) ->
  INV slot T B T [] r h rs m -> LOW d + 8 * pushes_list l <= rs rsp -> RETP ext m B q ->
  ENDS (MState n (rs, m, fl)) (tail_list N d r h l) (tail_post slot T B (n + List.length c) m).
Proof.
  intros IH Hg Hc Hlit Hs Hu Hsp Hv Hi Hl Hq. apply B_block in Hg as (s0 & s1 & G & U & Sp & E).
  eapply IH; [exact G|exact Hc|eapply lits_back; eauto|exact Hs|congruence|congruence|exact Hv|exact Hi|exact Hl|exact Hq].
Qed.

(** A list that does not end here. *)
Lemma TL_more N d slot ext T B r h s c s' n q rs m fl st l : TL_ok N ->
  gen_list slot ext (st :: l) s = Some (c, s') -> code_at P n c -> LITS s' -> safe_list (st :: l) = true ->
  in_use_types s = [] -> g_sp s = T -> vars_ok slot (list_vars (st :: l)) ->
  INV slot T B T [] r h rs m -> LOW d + 8 * pushes_list (st :: l) <= rs rsp -> RETP ext m B q ->
  ENDS (MState n (rs, m, fl))
    (bind (EXEC N d r h st) (fun '(o, r, h) => match o with ONormal => tail_list N d r h l | OReturn _ => Stuck end))
    (tail_post slot T B (n + List.length c) m).
Proof.
  intros IHl Hg Hc Hlit Hsafe Hu Hsp Hv Hi Hl Hq. cbn [gen_list] in Hg.
  apply seq_inv in Hg as (c1 & s1 & c2 & G1 & Hg & ->).
  cbn [safe_list] in Hsafe. apply andb_true_iff in Hsafe as [Ss Sl]. cbn [list_vars] in Hv. apply vars_app in Hv as [Hv1 Hv2].
  cbn [pushes_list] in Hl. apply code_at_app in Hc as [Hc1 Hc].
  pose proof (gen_list_eff' _ _ _ _ _ _ Hg) as (_ & _ & E3). pose proof (gen_stmt_eff _ _ _ _ _ _ G1) as (D1 & D2 & _).
  eapply ends_bind.
  { eapply (al_s _ _ _ _ _ _ _ _ _ _ _ _ _ _ _ _ _ _ _ _ (ALLN N)); [exact G1|exact Hc1|eapply lits_back; eauto|exact Ss|exact Hu|exact Hsp|exact Hv1|exact Hi|lia|exact Hq]. }
  intros [[o r1] h1] st1 (rs1 & m1 & fl1 & Hp). destruct o as [|v]; [|exact I].
  destruct Hp as (-> & Hs1 & Hi1). assert (Hrsp : rs1 rsp = rs rsp) by (eapply inv_rsp_eq; eassumption).
  assert (Hb : B + 16 <= hi) by (eapply inv_bound'; eassumption).
  eapply ends_weaken.
  { eapply (IHl d slot ext T B); [exact Hg|exact Hc|exact Hlit|exact Sl| |congruence|exact Hv2|exact Hi1|rewrite Hrsp; lia|].
    - unfold in_use_types in *. now rewrite D2.
    - eapply ret_place_same; [exact Hi|exact Hs1|exact Hq]. }
  intros a st2 Hp. apply (tail_post_same slot T B _ m m1); [lia|exact Hs1|].
  replace (n + List.length (c1 ++ c2))%nat with (n + List.length c1 + List.length c2)%nat by len. exact Hp.
Qed.

Lemma TL_step N : TL_ok N -> TI_ok N -> TL_ok (S N).
Proof.
  intros IHl IHi d slot ext T B r h s c s' n q rs m fl l Hg Hc Hlit Hsafe Hu Hsp Hv Hi Hl Hq.
  destruct l as [|st l]; [exact I|]. cbn [tail_list].
  assert (M : ENDS (MState n (rs, m, fl))
    (bind (EXEC N d r h st) (fun '(o, r, h) => match o with ONormal => tail_list N d r h l | OReturn _ => Stuck end))
    (tail_post slot T B (n + List.length c) m)).
  { eapply (TL_more N d slot ext T B); eassumption. }
  destruct st as [o|bs|x0 t0 e0|lh e0|c0 b0|b0|e]; try exact M; destruct l as [|st2 l]; try exact M; clear M.
  - cbn [gen_list] in Hg. apply seq_inv in Hg as (c1 & s1 & c2 & G1 & Hg & ->). apply nop_inv in Hg as [-> ->].
    rewrite app_nil_r in *. cbn [gen_stmt] in G1. apply new_label_inv in G1 as (c2 & -> & G1).
    apply seq_inv in G1 as (c3 & s3 & c4 & G3 & G4 & ->). apply emit_inv in G4 as [-> ->].
    cbn [safe_list] in Hsafe. apply andb_true_iff in Hsafe as [Ss _]. cbn [list_vars] in Hv. rewrite app_nil_r in Hv.
    cbn [pushes_list] in Hl. change (pushes_stmt (SIf bs)) with (pushes_branches bs) in Hl.
    apply code_at_cons in Hc as [H0 Hc]. apply code_at_app in Hc as [Hc3 Hc]. apply code_at_cons in Hc as [Hex _].
    one_step H0. eapply ends_then.
    { eapply (IHi d slot ext T B); [exact G3|exact Hc3|exact Hex|exact Hlit|exact Ss| |cbn; congruence|exact Hv|exact Hi|lia|exact Hq].
      unfold in_use_types in *. exact Hu. }
    intros [v h'] st' (rs' & m' & fl' & r' & -> & Hr & Hs & Hi'). eexists. split.
    { apply steps_one. cbn [step]. rewrite Hex. reflexivity. }
    exists rs', m', fl', r'. split; [f_equal; len|]. auto.
  - cbn [gen_list] in Hg. apply seq_inv in Hg as (c1 & s1 & c2 & G1 & Hg & ->). apply nop_inv in Hg as [-> ->].
    rewrite app_nil_r in *. cbn [gen_stmt] in G1.
    cbn [safe_list] in Hsafe. apply andb_true_iff in Hsafe as [Ss _].
    cbn [pushes_list pushes_stmt] in Hl.
    rewrite <- (bind_val_id (EVAL N d r h e)).
    eapply stmt_value; [apply (al_e _ _ _ _ _ _ _ _ _ _ _ _ _ _ _ _ _ _ _ _ (ALLN N))|exact G1|exact Hc|exact Hlit|exact Ss|exact Hu|exact Hsp|exact Hi|lia|].
    intros v h1 rs1 m1 fl1 V1 V2 V3. apply ends_val. exists rs1, m1, fl1, r. split; [reflexivity|]. split; [exact V1|].
    split; [eapply same_frame; eassumption|exact V3].
Qed.

Lemma TI_step N : TL_ok N -> TI_ok N -> TI_ok (S N).
Proof.
  intros IHl IHi d slot ext T B r h s c s' n q rs m fl ex bs Hg Hc Hex Hlit Hsafe Hu Hsp Hv Hi Hl Hq.
  assert (Hb : B + 16 <= hi) by (eapply inv_bound'; eassumption).
  destruct bs as [|[cnd b] bs]; [exact I|]. cbn [gen_branches] in Hg; cbn [tail_if].
  cbn [safe_branches] in Hsafe. apply andb_true_iff in Hsafe as [Hsafe Sr]. apply andb_true_iff in Hsafe as [Sc Sb].
  change (stmt_vars (SIf ((cnd, b) :: bs))) with ((match cnd with Some e => expr_vars e | None => [] end) ++ list_vars b ++ stmt_vars (SIf bs)) in Hv.
  apply vars_app in Hv as [_ Hv]. apply vars_app in Hv as [Hv1 Hv2].
  cbn [pushes_branches] in Hl. destruct cnd as [e|].
  + apply seq_inv in Hg as (c1 & s1 & c2 & G1 & Hg & ->). apply seq_inv in Hg as (c3 & s3 & c4 & G3 & Hg & ->). geff G1.
    apply new_label_inv in G3 as (c5 & -> & G3). set (next := LGen PElse (g_lab s1)) in *.
    apply seq_inv in G3 as (? & ? & c6 & Gx & G3 & ->). apply ins_inv in Gx as [-> ->].
    apply seq_inv in G3 as (? & ? & c7 & Gx & G3 & ->). apply ins_inv in Gx as [-> ->].
    apply seq_inv in G3 as (cb & sb & c8 & Gb & G3 & ->).
    apply seq_inv in G3 as (? & ? & c9 & Gx & G3 & ->). apply ins_inv in Gx as [-> ->]. apply emit_inv in G3 as [-> ->].
    pose proof (gen_branches_eff _ _ _ _ _ _ _ Hg) as (_ & _ & E3). pose proof (gen_block_eff' _ _ _ _ _ _ Gb) as (D1 & D2 & D3).
    cbn [g_sp g_reg g_lits set_lab] in D1, D2, D3.
    pose proof Hc as Hc0. cbn [app] in Hc. apply code_at_app in Hc as [Hc1 Hc]. apply code_at_cons in Hc as [_ Hc].
    apply code_at_cons in Hc as [_ Hc]. apply code_at_cons in Hc as [_ Hc]. rewrite <- app_assoc in Hc. apply code_at_app in Hc as [Hcb Hc].
    cbn [app] in Hc. apply code_at_cons in Hc as [Hjmp Hc]. apply code_at_cons in Hc as [Hnext Hc].
    assert (K1 : LITS s1) by (eapply lits_back; [|exact Hlit]; eauto using extends_trans).
    assert (K2 : code_at P n (c1 ++ [EFlush] ++ [EIns cmpq [true_op; OReg rax]; EIns jne [OLab next]])).
    { cbn [app] in Hc0. 
      match type of Hc0 with code_at _ _ (c1 ++ ?a :: ?b :: ?c :: ?r) => 
        change (a :: b :: c :: r) with (([a] ++ [b; c]) ++ r) in Hc0 end.
      rewrite app_assoc in Hc0. apply code_at_app in Hc0 as [Hc0 _]. exact Hc0. }
    eapply (condition _ _ _ _ _ _ _ _ _ _ _ _ _ _ _ _ _ _ _ N d slot T B r h s c1 s1 n rs m fl e next _ _
      (fun h => tail_list N d r h b) (fun h => tail_if N d r h bs));
      [apply (al_e _ _ _ _ _ _ _ _ _ _ _ _ _ _ _ _ _ _ _ _ (ALLN N))|exact G1|exact K1|exact Sc|exact Hu|exact Hsp|exact Hi|lia|right; reflexivity|exact K2
      |eapply label_at; [exact L|exact Hnext]| | |].
    * intros w h0. destruct (as_bool w) as [[]|]; reflexivity.
    * intros h1 rs1 m1 fl1 Hs1 Hi1. assert (Hrsp : rs1 rsp = rs rsp) by (eapply inv_rsp_eq; eassumption).
      assert (HsB : SAME B m m1) by (eapply same_frame; eassumption).
      at_code Hcb. eapply ends_then.
      { eapply (TL_block N d slot ext T B); [exact IHl|exact Gb|exact Hcb|eapply lits_back; eauto|exact Sb| |cbn; congruence|exact Hv1|exact Hi1|lia|].
        - unfold in_use_types in *. cbn [g_reg set_lab]. now rewrite B0.
        - eapply ret_place_same; [exact Hi|eassumption|exact Hq]. }
      intros [v h2] st2 (rs2 & m2 & fl2 & r2 & -> & Hr2 & Hs2 & Hi2).
      eexists. split.
      { apply steps_one. cbn [step]. rewrite Hjmp. erewrite (label_at) by eassumption. cbn [goto]. reflexivity. }
      exists rs2, m2, fl2, r2. split; [reflexivity|]. split; [exact Hr2|]. split; [|exact Hi2]. eapply same_trans; [|exact HsB|exact Hs2]. lia.
    * intros h1 rs1 m1 fl1 Hs1 Hi1. assert (Hrsp : rs1 rsp = rs rsp) by (eapply inv_rsp_eq; eassumption).
      assert (HsB : SAME B m m1) by (eapply same_frame; eassumption).
      one_step Hnext.
      eapply ends_weaken.
      { eapply (IHi d slot ext T B); [exact Hg|exact Hc| |exact Hlit|exact Sr| | |exact Hv2|exact Hi1|lia|].
        - match type of Hex with nth_error _ ?a = _ => match goal with |- nth_error _ ?b = _ => replace b with a by len end end. exact Hex.
        - unfold in_use_types in *. rewrite D2, B0. exact Hu.
        - congruence.
        - eapply ret_place_same; [exact Hi|eassumption|exact Hq]. }
      intros a st Hp. apply (tail_post_same slot T B _ m m1); [lia|exact HsB|].
      match type of Hp with tail_post _ _ _ ?a _ _ _ => match goal with |- tail_post _ _ _ ?b _ _ _ => replace b with a by len end end. exact Hp.
  + apply seq_inv in Hg as (c1 & s1 & c2 & G1 & Hg & ->).
    destruct bs as [|b2 bs]; [|exact I]. cbn [gen_branches] in Hg. apply nop_inv in Hg as [-> ->]. rewrite app_nil_r in *.
    eapply (TL_block N d slot ext T B); [exact IHl|exact G1|exact Hc|exact Hlit|exact Sb|exact Hu|exact Hsp|exact Hv1|exact Hi|lia|exact Hq].
Qed.

Lemma tails N : TL_ok N /\ TI_ok N.
Proof.
  induction N as [|N [H1 H2]]; [split; repeat intro; exact I|]. split; [now apply TL_step|now apply TI_step].
Qed.

(** The whole function. *)
Lemma Tail_run N d fd vs h s c s' n q rs m fl b :
  In fd prog -> f_body fd = BBlock b -> f_ret fd = TNothing -> return_last b = false ->
  gen_fn alloc fd s = Some (c, s') -> code_at P n c -> LITS s' ->
  in_use vs rs -> is_word (rs rbp) -> rs rsp mod 16 = 8 -> LOW d <= rs rsp + 8 <= hi -> agree heap m h ->
  place (if f_extret fd then load m (rs rsp) else word (load m (rs rsp) + 8)) = Some q ->
  ENDS (MState n (rs, m, fl)) (tail_run N d fd vs h) (fun '(v, h') st' =>
    exists rs' m' fl', st' = MState q (rs', m', fl') /\ result_in v rs' /\
      rs' rsp = rs rsp + 8 /\ rs' rbp = rs rbp /\ agree heap m' h' /\ SAME (rs rsp + 8) m m').
Proof.
  intros Hin Eb Ek Er Hg Hc Hlit Hu Hbp Hal Hb Ha Hq.
  destruct (HF fd Hin) as [Hsafe Hfr]. unfold tail_run. rewrite Eb. destruct d as [|d]; [exact I|].
  unfold gen_fn in Hg. destruct (fn_slots fd) as [tt l] eqn:Hsl.
  apply seq_inv in Hg as (? & ? & c0 & Gx & Hg & ->). apply modify_inv in Gx as [-> ->].
  apply seq_inv in Hg as (c1 & s1 & c2 & G1 & Hg & ->).
  apply seq_inv in Hg as (? & ? & c3 & Gx & Hg & ->). apply modify_inv in Gx as [-> ->].
  apply seq_inv in Hg as (c4 & s4 & c5 & G4 & Hg & ->).
  apply seq_inv in Hg as (c6 & s6 & c7 & G6 & Hg & ->). apply gen_maps_inv in Hg as ->.
  cbn [app] in Hc. rewrite app_assoc in Hc. apply code_at_app in Hc as [Hc1 Hc]. apply code_at_app in Hc as [Hc6 _].
  assert (Hrm : 0 <= room) by (eapply Hroom; exact L). assert (Hdf : Z.of_nat (S d) * F = Z.of_nat d * F + F) by lia.
  assert (Hdf0 : 0 <= Z.of_nat d * F) by nia.
  destruct (enter_run _ _ _ _ _ _ _ _ _ _ _ _ _ _ _ _ _ _ _ L HF fd vs h _ _ _ _ _ n rs m fl tt l Hsafe Hsl G1 G4 Hc1 Hu Hbp Hal ltac:(lia) Ha)
    as (rs1 & m1 & S1 & En & -> & (D1 & D2 & D3) & Hv).
  eapply ends_steps; [exact S1|].
  pose proof En as [Hi E1 E2 E3 E4 E5 E6]. set (T := round_temps tt) in *.
  assert (HspT : g_sp s4 = T) by (rewrite D1; cbn; lia).
  assert (Hin4 : in_use_types s4 = []). { unfold in_use_types. rewrite D2. reflexivity. }
  pose proof Hi as [[B1 B2 [B3 B3'] B4 B5 B6] J2 J3 J4 J5 J6 J7 J8].
  assert (Hqm : RETP (f_extret fd) m1 (rs rsp - 8) q).
  { unfold ret_place. replace (rs rsp - 8 + 8) with (rs rsp) by lia. rewrite E2. exact Hq. }
  unfold safe_fun in Hsafe. apply andb_true_iff in Hsafe as [_ Hsafe]. unfold frame_bytes in Hfr.
  rewrite Eb in *. rewrite Ek, Er in G6. cbn [kind_eqb andb negb] in G6.
  apply seq_inv in G6 as (cb & sb & cx & Gb & Gx & ->). apply code_at_app in Hc6 as [Hcb Hcx].
  apply exit_eff in Gx as [-> ->].
  eapply ends_then.
  { eapply (TL_block N d (get_slot l) (f_extret fd) T (rs rsp - 8));
      [apply tails|exact Gb|exact Hcb|exact Hlit|exact Hsafe|exact Hin4|exact HspT|exact Hv|exact Hi|lia|exact Hqm]. }
  intros [v h'] st2 (rs2 & m2 & fl2 & r2 & -> & X0 & X1 & X2).
  assert (Hq2 : RETP (f_extret fd) m2 (rs rsp - 8) q) by (eapply ret_place_same; [exact Hi|exact X1|exact Hqm]).
  edestruct exit_run as (rs3 & fl3 & S3 & U1 & U2 & U3); [exact L|exact Hcx|exact X2|exact Hq2|].
  eexists. split; [exact S3|]. exists rs3, m2, fl3. split; [reflexivity|]. split.
  { destruct v as [v|]; [|exact I]. cbn in *. rewrite U1. exact X0. }
  split; [lia|]. split.
  { rewrite U3. rewrite <- E1. apply (same_load hi (rs rsp - 8)); [exact X1|lia|lia]. }
  split; [apply X2|]. apply (same_trans hi (rs rsp) _ m m1); [lia|exact E3|]. eapply same_weaken; [|exact X1]. lia.
Qed.
End Tail.
