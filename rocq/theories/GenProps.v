(** The claims about generated code, in terms of loaded programs. *)
From Coq Require Import ZArith List Bool String Lia.
From Verif Require Import Ints X86 GenModel GenProgram GenSpec GenMem GenStatic GenSlots GenPure GenExec GenCorrect GenLabels GenLink GenWorld.
Import ListNotations.
Open Scope Z_scope.
Local Arguments Z.mul : simpl never. Local Arguments Z.add : simpl never. Local Arguments Z.sub : simpl never.
Local Arguments Z.of_nat : simpl never.

(* ---------------------------------------------------------- arithmetic and booleans *)

(** The code of an expression over ints and bools does not depend on the registers in
    use nor on string literals. *)
Definition strip (s : gst) : gst := Gst (g_sp s) [] (g_scopes s) (g_roots s) (g_maps s) (g_id s) (g_lab s) [].
Definition stripped (g : gst -> option (list event * gst)) : Prop := forall s c s', g s = Some (c, s') -> g (strip s) = Some (c, strip s').
Lemma strip_seq a b : stripped a -> stripped b -> stripped (seq a b).
Proof.
  intros Ha Hb s c s' H. apply seq_inv in H as (c1 & s1 & c2 & H1 & H2 & ->).
  eapply seq_intro; [eapply Ha; exact H1|eapply Hb; exact H2].
Qed.
Lemma strip_emit e : stripped (emit e).
Proof. intros s c s' H. apply emit_inv in H as [-> ->]. reflexivity. Qed.
Lemma strip_nop : stripped nop.
Proof. intros s c s' H. apply nop_inv in H as [-> ->]. reflexivity. Qed.
Lemma strip_panic : stripped panic.
Proof. discriminate. Qed.
Lemma strip_ins i o : stripped (ins i o).
Proof. apply strip_emit. Qed.
Lemma strip_save r : stripped (save r).
Proof. intros s c s' H. unfold save in *. injection H as <- <-. reflexivity. Qed.
Lemma strip_restore r : stripped (restore r).
Proof. intros s c s' H. injection H as <- <-. reflexivity. Qed.
Lemma strip_label p k : (forall l, stripped (k l)) -> stripped (new_label p k).
Proof.
  intros Hk s c s' H. unfold new_label in *. apply seq_inv in H as (c1 & s1 & c2 & H1 & H2 & ->).
  apply emit_inv in H1 as [-> ->]. apply Hk in H2. eapply seq_intro; [reflexivity|exact H2].
Qed.
Lemma strip_displace r d k : (forall m, stripped (k m)) -> stripped (displace r d k).
Proof. intros Hk. unfold displace. destruct (_ || _); [apply strip_panic|apply Hk]. Qed.
Ltac strip_tac := repeat first
  [ apply strip_seq | apply strip_ins | apply strip_emit | apply strip_nop | apply strip_panic | apply strip_save | apply strip_restore
  | apply strip_displace; intro | apply strip_label; intro | assumption ].
Lemma strip_untag k r : stripped (untag_as k r).
Proof. unfold untag_as, tag_len_for. destruct k; strip_tac. Qed.
Lemma strip_tag k r : stripped (tag_as k r).
Proof. unfold tag_as, tag_len_for, tag_for. destruct k; strip_tac. Qed.
Ltac strip_tac ::= repeat first
  [ apply strip_tag | apply strip_untag | apply strip_save | apply strip_restore | apply strip_seq | apply strip_ins | apply strip_emit | apply strip_nop | apply strip_panic
  | apply strip_displace; intro | apply strip_label; intro | assumption ].
Lemma strip_plain slot e : plain_expr e = true -> forall ta, stripped (gen_expr slot e ta).
Proof.
  induction e; cbn [plain_expr]; intros Hp ta; try discriminate; rewrite ?andb_true_iff in Hp.
  - cbn [gen_expr]. destruct (_ || _); [|destruct (_ || _)]; strip_tac.
  - cbn [gen_expr]. strip_tac.
  - destruct Hp as [H1 H2]. cbn [gen_expr]. pose proof (IHe1 H1 false). pose proof (IHe2 H2 false). strip_tac.
  - destruct Hp as [H1 H2]. cbn [gen_expr]. pose proof (IHe1 H1 false). pose proof (IHe2 H2 false).
    destruct op; strip_tac.
  - pose proof (IHe Hp false). cbn [gen_expr]. strip_tac.
  - pose proof (IHe Hp false). cbn [gen_expr]. unfold tag_for. destruct (knd e); strip_tac.
  - pose proof (IHe Hp false). cbn [gen_expr]. strip_tac.
  - destruct Hp as [H1 H2]. cbn [gen_expr]. pose proof (IHe1 H1 false). pose proof (IHe2 H2 false). strip_tac.
  - destruct Hp as [H1 H2]. cbn [gen_expr]. pose proof (IHe1 H1 false). pose proof (IHe2 H2 false).
    strip_tac.
  - cbn [gen_expr]. strip_tac.
  - destruct Hp as [[H1 H2] H3]. cbn [gen_expr]. pose proof (IHe1 H1 false). pose proof (IHe2 H2 false). pose proof (IHe3 H3 false). strip_tac.
Qed.

Section World.
Variable w : world.
Hypothesis Hw : loaded w.
Let LK := proj1 Hw.
Let HF0 := proj1 (proj2 Hw).
Let HF := proj2 (proj2 Hw).

Lemma plain_code d slot T B s c s' n r h rs m fl rho e :
  plain_expr e = true -> gen_expr slot e false s = Some (c, s') -> code_at (w_code w) n c ->
  inside w slot T B (g_sp s) [] r h rs m -> stack_left w d (pushes e) rs -> holds rho r ->
  match meaning rho e with
  | PVal v => exists rs' m' fl', runs w (MState n (rs, m, fl)) (MState (n + List.length c) (rs', m', fl')) /\
      rs' rax = word_of v /\ stack_kept w (rs rsp) m m' /\ inside w slot T B (g_sp s) [] r h rs' m'
  | PDivZero => exists st', runs w (MState n (rs, m, fl)) st' /\ at_division_by_zero (w_code w) st'
  | PWrong => True
  end.
Proof.
  intros Hp Hg Hc Hin Hst Hr. apply strip_plain in Hg; [|exact Hp].
  pose proof (al_e _ _ _ _ _ _ _ _ _ _ _ _ _ _ _ _ _ _ _ _ (all _ _ _ _ _ _ _ _ _ _ _ _ _ _ _ _ _ _ _ LK HF0 HF (height e))
    e d slot T B [] r h (strip s) c (strip s') n rs m fl Hg Hc) as H.
  assert (H0 : lits_ok (w_lits w) (strip s')) by (intros k x; destruct k; discriminate).
  specialize (H H0 (plain_safe e 0 ltac:(lia) Hp) eq_refl Hin Hst).
  pose proof (eval_meaning (w_heap w) (w_lit w) (w_fun_addr w) (w_fun_at w) (w_extern w) (w_abstract w) (w_alloc w) (w_prog w)
    rho r h d Hr e (height e) (le_n _)) as Hm.
  destruct (meaning rho e); [| |exact I].
  - rewrite Hm in H. destruct H as (st' & S1 & rs' & m' & fl' & -> & [R1 R2] & R3 & R4). exists rs', m', fl'. auto.
  - rewrite Hm in H. exact H.
Qed.

Notation ALL N := (all _ _ _ _ _ _ _ _ _ _ _ _ _ _ _ _ _ _ _ LK HF0 HF N).

Lemma expr_code N d slot T B us r h s c s' n rs m fl e :
  gen_expr slot e false s = Some (c, s') -> code_at (w_code w) n c -> lits_in w s' ->
  safe (List.length us) e = true -> List.length us = regs_in_use s ->
  inside w slot T B (g_sp s) us r h rs m -> stack_left w d (pushes e) rs ->
  behaves w (MState n (rs, m, fl)) (ev w N d r h e) (fun '(v, h') st' =>
    exists rs' m' fl', st' = MState (n + List.length c) (rs', m', fl') /\ result_in v rs' /\
      rs' rsp = rs rsp /\ rs' rbp = rs rbp /\ stack_kept w (rs rsp) m m' /\
      inside w slot T B (g_sp s) us r h' rs' m').
Proof.
  intros Hg Hc Hl Hs Hu Hi Hst.
  eapply ends_weaken; [exact (al_e _ _ _ _ _ _ _ _ _ _ _ _ _ _ _ _ _ _ _ _ (ALL N) e d slot T B us r h s c s' n rs m fl Hg Hc Hl Hs Hu Hi Hst)|].
  intros [v h'] st' (rs' & m' & fl' & E & R1 & R2 & R3). exists rs', m', fl'. split; [exact E|]. split; [exact R1|].
  split; [rewrite (iv_rsp _ _ _ _ _ _ _ _ _ _ _ _ Hi), (iv_rsp _ _ _ _ _ _ _ _ _ _ _ _ R3); reflexivity|].
  split; [rewrite (iv_rbp _ _ _ _ _ _ _ _ _ _ _ _ Hi), (iv_rbp _ _ _ _ _ _ _ _ _ _ _ _ R3); reflexivity|]. auto.
Qed.

(* ------------------------------------------------------------------------- functions *)

Lemma fun_code N d fd vs h n rs m fl q :
  In fd (w_prog w) -> nth_error (w_code w) n = Some (EFn (f_name fd)) ->
  in_use vs rs -> is_addr (rs rbp) -> rs rsp mod 16 = 8 ->
  w_lo w + w_room w + Z.of_nat d * w_frame w <= rs rsp + 8 <= w_hi w -> agree (w_heap w) m h ->
  w_place w (if f_extret fd then load m (rs rsp) else word (load m (rs rsp) + 8)) = Some q ->
  behaves w (MState n (rs, m, fl)) (ev_fun w N d fd vs h) (fun '(v, h') st' =>
    exists rs' m' fl', st' = MState q (rs', m', fl') /\ result_in v rs' /\
      rs' rsp = rs rsp + 8 /\ rs' rbp = rs rbp /\ agree (w_heap w) m' h' /\ stack_kept w (rs rsp + 8) m m').
Proof.
  intros Hin Hn Hu Hb Ha Hst Hag Hq.
  destruct (lk_code _ _ _ _ _ _ _ _ _ _ _ _ _ _ _ _ _ _ LK fd Hin) as (s & c & s' & k & Hg & Hc & Hl).
  assert (k = n).
  { destruct (gen_fn_start _ _ _ _ _ Hg) as [c' ->]. apply code_at_cons in Hc as [H0 _].
    apply (lk_entry _ _ _ _ _ _ _ _ _ _ _ _ _ _ _ _ _ _ LK) in H0 as [E1 _].
    apply (lk_entry _ _ _ _ _ _ _ _ _ _ _ _ _ _ _ _ _ _ LK) in Hn as [E2 _]. congruence. }
  subst k.
  exact (al_run _ _ _ _ _ _ _ _ _ _ _ _ _ _ _ _ _ _ _ _ (ALL N) d fd vs h s c s' n q rs m fl Hin Hg Hc Hl Hu Hb Ha Hst Hag Hq).
Qed.

Lemma gen_params_length ps : forall i s c s', gen_params i ps s = Some (c, s') -> List.length c = List.length ps.
Proof.
  induction ps as [|[x t] ps IH]; intros i s c s' H; cbn [gen_params] in H.
  - apply nop_inv in H as [-> _]. reflexivity.
  - apply seq_inv in H as (c1 & s1 & c2 & H1 & H & ->). apply seq_inv in H as (c3 & s3 & c4 & H3 & H4 & ->).
    rewrite !app_length, (IH _ _ _ _ H4). cbn [List.length].
    assert (List.length c1 = 1%nat).
    { unfold with_reg in H1. destruct (nth_error arg_regs i); [|discriminate]. unfold displace in H1.
      destruct (_ || _); [discriminate|]. apply ins_inv in H1 as [-> _]. reflexivity. }
    assert (List.length c3 = 0%nat).
    { unfold add_root in H3. destruct (is_pointer t); [apply modify_inv in H3 as [-> _]|apply nop_inv in H3 as [-> _]]; reflexivity. }
    lia.
Qed.

Lemma enter_body fd vs h n rs m fl o d :
  In fd (w_prog w) -> nth_error (w_code w) n = Some (EIns call [o]) ->
  in_use vs rs -> is_addr (rs rbp) -> rs rsp mod 16 = 0 ->
  w_lo w + w_room w + Z.of_nat (S d) * w_frame w <= rs rsp <= w_hi w -> agree (w_heap w) m h ->
  exists n0 st', nth_error (w_code w) n0 = Some (EFn (f_name fd)) /\
    runs w (MState n0 (push (rs, m, fl) (w_addr w (S n)))) st' /\ in_body w fd vs st'.
Proof.
  intros Hin Hn Hu Hb Ha Hlow Hag.
  destruct (lk_code _ _ _ _ _ _ _ _ _ _ _ _ _ _ _ _ _ _ LK fd Hin) as (s & c & s' & k & Hg & Hc & Hl).
  destruct (gen_fn_start _ _ _ _ _ Hg) as [c' Ec].
  assert (H0 : nth_error (w_code w) k = Some (EFn (f_name fd))).
  { rewrite Ec in Hc. apply code_at_cons in Hc as [Hc _]. exact Hc. }
  clear c' Ec. exists k. destruct (HF fd Hin) as [Hsafe Hfr]. unfold gen_fn in Hg. destruct (fn_slots fd) as [tt l] eqn:Hsl.
  apply seq_inv in Hg as (? & ? & c0 & Gx & Hg & ->). apply modify_inv in Gx as [-> ->].
  apply seq_inv in Hg as (c1 & s1 & c2 & G1 & Hg & ->).
  apply seq_inv in Hg as (? & ? & c3 & Gx & Hg & ->). apply modify_inv in Gx as [-> ->].
  apply seq_inv in Hg as (c4 & s4 & c5 & G4 & Hg & ->).
  cbn [app] in Hc. rewrite app_assoc in Hc. apply code_at_app in Hc as [Hc1 _].
  pose proof (Hst _ _ _ _ _ _ _ _ _ _ _ _ _ _ _ _ _ _ LK) as [Hs1 Hs2]. pose proof (Hroom _ _ _ _ _ _ _ _ _ _ _ _ _ _ _ _ _ _ LK) as Hrm.
  pose proof (frame_pos _ _ HF fd) as Hf16.
  assert (Hdf : w_frame w <= Z.of_nat (S d) * w_frame w) by nia.
  assert (Hwd : word (rs rsp - 8) = rs rsp - 8) by (apply word_id; unfold is_word; lia).
  cbn [push]. rewrite Hwd.
  set (rs1 := rset rs rsp (rs rsp - 8)). set (m1 := store m (rs rsp - 8) (w_addr w (S n))).
  assert (E1 : rs1 rsp = rs rsp - 8) by (unfold rs1; first [apply rset_same|rewrite rset_other by discriminate; reflexivity]).
  assert (E2 : rs1 rbp = rs rbp) by (unfold rs1; first [apply rset_same|rewrite rset_other by discriminate; reflexivity]).
  destruct (enter_run _ _ _ _ _ _ _ _ _ _ _ _ _ _ _ _ _ _ _ LK HF fd vs h _ _ _ _ _ k rs1 m1 fl tt l Hsafe Hsl G1 G4 Hc1) as (rs2 & m2 & S1 & En & _).
  - unfold rs1. apply (in_use_set (w_heap w)); [|exact Hu]. intros i Hr. apply arg_reg_not in Hr. tauto.
  - rewrite E2. exact Hb.
  - rewrite E1. clear - Ha. Z.div_mod_to_equations. lia.
  - rewrite E1. lia.
  - unfold m1. eapply agree_store_stack; [exact (Hhp _ _ _ _ _ _ _ _ _ _ _ _ _ _ _ _ _ _ LK)|exact Hag| |]; lia.
  - eexists. split; [exact H0|]. split; [exact S1|]. destruct En as [Hi _ _ _ _ _ E6]. exists k, rs2, m2, fl.
    split; [exact H0|]. split.
    + f_equal. unfold gen_entry in G1. apply seq_inv in G1 as (x1 & y1 & x2 & Gx & G1 & ->). apply emit_inv in Gx as [-> ->]. apply ins_inv in G1 as [-> ->].
      rewrite !app_length, (gen_params_length _ _ _ _ _ G4). cbn [List.length]. lia.
    + intros i x t v Hp Hv. rewrite (iv_rbp _ _ _ _ _ _ _ _ _ _ _ _ Hi).
      destruct (E6 i v Hv) as [_ E7]; [apply nth_error_Some; congruence|]. rewrite <- E7. f_equal; lia.
Qed.

(** The arguments reach the parameters of the called function. *)
Lemma call_code_args N d slot T B us r h s c s' n rs m fl t fi f args fd vs h2 :
  gen_expr slot (ECall t fi f args) false s = Some (c, s') -> code_at (w_code w) n c -> lits_in w s' ->
  safe_args 0 args = true -> List.length us = regs_in_use s ->
  inside w slot T B (g_sp s) us r h rs m -> stack_left w (S d) (7 + pushes_args args) rs ->
  fi_external fi = false -> find_fun (w_prog w) f = Some fd -> ev_args w N (S d) r h args = Val (vs, h2) ->
  exists st', runs w (MState n (rs, m, fl)) st' /\ in_body w fd vs st'.
Proof.
  intros Hg Hc Hl Hs Hu Hi Hlow Hx Hf He. rewrite gen_expr_call in Hg.
  pose proof (call_reaches _ _ _ _ _ _ _ _ _ _ _ _ _ _ _ _ _ _ _ LK HF0 N (S d) slot T B us r h s c s' n rs m fl fi args (CName f)
    ltac:(discriminate) (al_args _ _ _ _ _ _ _ _ _ _ _ _ _ _ _ _ _ _ _ _ (ALL N)) Hg Hc Hl Hs Hu Hi Hlow) as H.
  unfold ev_args in He. rewrite He in H. destruct H as (st & S1 & Hn & p & rsA & mA & flA & spA & -> & _ & Hp & Hi2 & Hal & HlA & _).
  apply find_fun_in in Hf as [Hin <-]. assert (Ec : conv fi args vs = vs) by (unfold conv; now rewrite Hx). rewrite Ec in Hi2.
  cbn [call_ins] in Hp.
  pose proof (inv_bound _ _ _ _ _ _ _ _ _ _ _ _ Hi2) as Hb.
  destruct (enter_body fd vs h2 p rsA mA flA (OFn (f_name fd)) d Hin Hp) as (n0 & st' & H0 & S2 & Hbd).
  - apply Hi2.
  - exact (inv_rbp_word _ _ _ _ _ _ _ _ _ _ _ _ _ _ _ _ _ _ LK _ _ _ _ _ _ _ _ _ Hi2).
  - exact Hal.
  - lia.
  - apply Hi2.
  - exists st'. split; [|exact Hbd]. eapply steps_trans; [exact S1|]. eapply steps_step; [|exact S2].
    cbn [step]. rewrite Hp, aligned_true by exact Hal. unfold call_named.
    rewrite (proj1 (lk_entry _ _ _ _ _ _ _ _ _ _ _ _ _ _ _ _ _ _ LK _ _ H0)). reflexivity.
Qed.

(** Statements. *)
Lemma stmt_code N d slot ext T B r h s c s' n q rs m fl st :
  gen_stmt slot ext st s = Some (c, s') -> code_at (w_code w) n c -> lits_in w s' -> safe_stmt st = true ->
  regs_in_use s = 0%nat -> g_sp s = T -> (forall x, In x (stmt_vars st) -> slot x <> 0) ->
  inside w slot T B T [] r h rs m -> stack_left w d (pushes_stmt st) rs ->
  w_place w (if ext then load m (B + 8) else word (load m (B + 8) + 8)) = Some q ->
  behaves w (MState n (rs, m, fl)) (exec_stmt (w_heap w) (w_lit w) (w_fun_addr w) (w_fun_at w) (w_extern w) (w_abstract w) (w_alloc w) (w_prog w) N d r h st)
    (stmt_post (w_heap w) (w_lo w) (w_hi w) slot T B (n + List.length c) q m).
Proof.
  intros Hg Hc Hl Hs Hu Hsp Hv Hi Hst Hq.
  refine (al_s _ _ _ _ _ _ _ _ _ _ _ _ _ _ _ _ _ _ _ _ (ALL N) d slot ext T B r h s c s' n q rs m fl st Hg Hc Hl Hs _ Hsp Hv Hi Hst Hq).
  unfold regs_in_use in Hu. unfold in_use_types. destruct (g_reg s) as [|[] ?]; cbn in *; congruence.
Qed.

(* ------------------------------------------------------------------- array elements *)

Definition elem (p i : Z) : Z := word (p + 8 * i + 8).

Lemma index_eval N d r h t a i p h1 iw h2 :
  ev w N d r h a = Val (Some p, h1) -> ev w N d r h1 i = Val (Some iw, h2) ->
  ok8 (w_heap w) p = true -> 0 <= ival (load h2 p) ->
  eval_addr (w_heap w) (w_lit w) (w_fun_addr w) (w_fun_at w) (w_extern w) (w_abstract w) (w_alloc w) (w_prog w) (S N) d r h (EIndex t a i) =
  if (0 <=? ival iw) && (ival iw <? ival (load h2 p)) then Val (elem p (ival iw), h2) else Ioob (ival iw) p h2.
Proof.
  intros Ha Hi Hok Hlen.
  change (need (ev w N d r h a) (fun a h => need (ev w N d r h i) (fun i h =>
          if ok8 (w_heap w) a then
            let len := ival (load h a) in
            if len <? 0 then Stuck
            else if (0 <=? ival i) && (ival i <? len) then Val (word (a + 8 * ival i + 8), h)
            else Ioob (ival i) a h
          else Stuck)) = if (0 <=? ival iw) && (ival iw <? ival (load h2 p)) then Val (elem p (ival iw), h2) else Ioob (ival iw) p h2).
  rewrite Ha. unfold need. cbn [bind]. rewrite Hi. cbn [bind].
  rewrite Hok. cbv zeta. destruct (Z.ltb_spec (ival (load h2 p)) 0); [lia|]. reflexivity.
Qed.

Lemma index_inside N d slot T B us r h s c s' n rs m fl t a i p h1 iw h2 :
  gen_expr slot (EIndex t a i) false s = Some (c, s') -> code_at (w_code w) n c -> lits_in w s' ->
  safe (List.length us) (EIndex t a i) = true -> List.length us = regs_in_use s ->
  inside w slot T B (g_sp s) us r h rs m -> stack_left w d (pushes (EIndex t a i)) rs ->
  ev w N d r h a = Val (Some p, h1) -> ev w N d r h1 i = Val (Some iw, h2) ->
  ok8 (w_heap w) p = true -> 0 <= ival iw < ival (load h2 p) -> ok8 (w_heap w) (elem p (ival iw)) = true ->
  exists rs' m' fl', runs w (MState n (rs, m, fl)) (MState (n + List.length c) (rs', m', fl')) /\
    rs' rax = load h2 (elem p (ival iw)) /\ stack_kept w (rs rsp) m m' /\ inside w slot T B (g_sp s) us r h2 rs' m'.
Proof.
  intros Hg Hc Hl Hs Hu Hi Hst Ha Hx Hok Hr Hel.
  pose proof (expr_code (S (S N)) d slot T B us r h s c s' n rs m fl _ Hg Hc Hl Hs Hu Hi Hst) as H.
  unfold ev in H. change (eval (w_heap w) (w_lit w) (w_fun_addr w) (w_fun_at w) (w_extern w) (w_abstract w) (w_alloc w) (w_prog w) (S (S N)) d r h (EIndex t a i))
    with (bind (eval_addr (w_heap w) (w_lit w) (w_fun_addr w) (w_fun_at w) (w_extern w) (w_abstract w) (w_alloc w) (w_prog w) (S N) d r h (EIndex t a i))
      (fun '(a, h) => if ok8 (w_heap w) a then Val (Some (load h a), h) else Stuck)) in H.
  rewrite (index_eval _ _ _ _ _ _ _ _ _ _ _ Ha Hx Hok ltac:(lia)) in H.
  assert (E : (0 <=? ival iw) && (ival iw <? ival (load h2 p)) = true) by (apply andb_true_intro; split; [apply Z.leb_le|apply Z.ltb_lt]; lia).
  rewrite E in H. cbn [bind] in H. rewrite Hel in H. destruct H as (st' & S1 & rs' & m' & fl' & -> & [R1 _] & _ & _ & R4 & R5).
  exists rs', m', fl'. auto.
Qed.

Lemma index_outside N d slot T B us r h s c s' n rs m fl t a i p h1 iw h2 ta ioob :
  gen_expr slot (EIndex t a i) ta s = Some (c, s') -> code_at (w_code w) n c -> lits_in w s' ->
  safe (List.length us) (EIndex t a i) = true -> List.length us = regs_in_use s ->
  inside w slot T B (g_sp s) us r h rs m -> stack_left w d (pushes (EIndex t a i)) rs ->
  ev w N d r h a = Val (Some p, h1) -> ev w N d r h1 i = Val (Some iw, h2) -> is_addr p ->
  ok8 (w_heap w) p = true -> 0 <= ival (load h2 p) -> ~ (0 <= ival iw < ival (load h2 p)) -> reports_bad_index w ioob ->
  exists q rs' m' fl', runs w (MState n (rs, m, fl)) (MState q (rs', m', fl')) /\
    nth_error (w_code w) q = Some (EIns call [OFn ioob]) /\
    rs' rdi = wint (ival iw) /\ rs' rsi = load h2 p /\ rs' rsp mod 16 = 0 /\ agree (w_heap w) m' h2.
Proof.
  intros Hg Hc Hl Hs Hu Hi Hst Ha Hx Hp Hok Hlen Hr (k & Hk & Hcode).
  pose proof (al_a _ _ _ _ _ _ _ _ _ _ _ _ _ _ _ _ _ _ _ _ (ALL (S N)) d ta slot T B us r h s c s' n rs m fl _ Hg Hc Hl Hs Hu Hi Hst) as H.
  rewrite (index_eval _ _ _ _ _ _ _ _ _ _ _ Ha Hx Hok Hlen) in H.
  assert (E : (0 <=? ival iw) && (ival iw <? ival (load h2 p)) = false).
  { apply andb_false_iff. destruct (Z.leb_spec 0 (ival iw)); [right; apply Z.ltb_ge; lia|left; reflexivity]. }
  rewrite E in H. destruct H as (p' & rs1 & m1 & fl1 & F & S1 & R1 & R2 & R3). rewrite Hk in F. injection F as <-.
  destruct (ioob_run (w_laddr w) (w_ext w) (w_skips w) (w_addr w) (w_place w) (w_code w) (w_heap w) (w_lo w) (w_hi w) (lk_heap _ _ _ _ _ _ _ _ _ _ _ _ _ _ _ _ _ _ LK) ioob k (ival iw) p rs1 m1 fl1 Hcode R1 R2 Hp)
    as (q & rs' & fl' & S2 & Q & A1 & A2 & A3).
  exists q, rs', m1, fl'. split; [eapply steps_trans; eassumption|]. split; [exact Q|]. split; [exact A1|]. split; [|auto].
  rewrite A2. now apply (agree_load (w_heap w)).
Qed.

Lemma index_address N d slot T B us r h s c s' n rs m fl t a i p h1 iw h2 :
  gen_expr slot (EIndex t a i) true s = Some (c, s') -> code_at (w_code w) n c -> lits_in w s' ->
  safe (List.length us) (EIndex t a i) = true -> List.length us = regs_in_use s ->
  inside w slot T B (g_sp s) us r h rs m -> stack_left w d (pushes (EIndex t a i)) rs ->
  ev w N d r h a = Val (Some p, h1) -> ev w N d r h1 i = Val (Some iw, h2) ->
  ok8 (w_heap w) p = true -> 0 <= ival iw < ival (load h2 p) ->
  exists rs' m' fl', runs w (MState n (rs, m, fl)) (MState (n + List.length c) (rs', m', fl')) /\
    rs' rax = elem p (ival iw) /\ stack_kept w (rs rsp) m m' /\ agree (w_heap w) m' h2.
Proof.
  intros Hg Hc Hl Hs Hu Hi Hst Ha Hx Hok Hr.
  pose proof (al_a _ _ _ _ _ _ _ _ _ _ _ _ _ _ _ _ _ _ _ _ (ALL (S N)) d true slot T B us r h s c s' n rs m fl _ Hg Hc Hl Hs Hu Hi Hst) as H.
  rewrite (index_eval _ _ _ _ _ _ _ _ _ _ _ Ha Hx Hok ltac:(lia)) in H.
  assert (E : (0 <=? ival iw) && (ival iw <? ival (load h2 p)) = true) by (apply andb_true_intro; split; [apply Z.leb_le|apply Z.ltb_lt]; lia).
  rewrite E in H. destruct H as (st' & S1 & rs1 & m1 & fl1 & mo & -> & Q & M1 & M2 & M3 & Hs1 & Hi1).
  exists (rset rs1 rax (ea rs1 mo)), m1, fl1. split; [|split; [|split]].
  - eapply steps_trans; [exact S1|]. eapply steps_step; [|apply steps_refl]. cbn [step]. rewrite Q. cbn [exec]. rewrite M1, M2. cbn [andb negb].
    f_equal. f_equal. cbn [gen_expr] in Hg. apply seq_inv in Hg as (? & ? & ? & _ & Hg & ->). apply seq_inv in Hg as (y1 & ? & ? & Hy1 & Hg & ->).
    assert (0 < List.length y1)%nat by (unfold save, seq, ins, emit, inc_sp, modify in Hy1; injection Hy1 as <- _; cbn; lia).
    rewrite !app_length. lia.
  - rewrite rset_same. exact M3.
  - exact Hs1.
  - apply Hi1.
Qed.

(* -------------------------------------------------------------- objects and fields *)

Lemma set_fields_spec heap vs : forall p h h', set_fields heap vs p h = Val h' ->
  0 <= p -> p + 8 * Z.of_nat (List.length vs) <= 18446744073709551616 -> (forall v, In (Some v) vs -> is_addr v) ->
  (forall i v, nth_error vs i = Some (Some v) -> load h' (p + 8 * Z.of_nat i) = v) /\
  (forall a, a < p \/ p + 8 * Z.of_nat (List.length vs) <= a -> h' a = h a).
Proof.
  induction vs as [|[v|] vs IH]; intros p h h' H Hp Hw1 Hv; cbn [set_fields List.length] in *; [| |discriminate].
  - injection H as <-. split; [|auto]. intros [|i] v Hi; discriminate.
  - destruct (ok8 heap (word p)); [|discriminate]. rewrite Nat2Z.inj_succ in Hw1.
    rewrite (word_id p) in H by (unfold is_word; lia).
    destruct (IH _ _ _ H ltac:(lia) ltac:(lia) ltac:(intros; apply Hv; now right)) as [H1 H2].
    rewrite Nat2Z.inj_succ. split.
    + intros [|i] u Hi.
      * injection Hi as ->. replace (p + 8 * Z.of_nat 0) with p by lia. transitivity (load (store h p u) p).
        -- apply load_ext. intros j Hj. apply H2. lia.
        -- rewrite load_store_same. apply word_id. apply Hv. now left.
      * cbn in Hi. rewrite <- (H1 i u Hi). f_equal. lia.
    + intros a Ha. rewrite H2 by lia. unfold store. destruct (Z.leb_spec p a), (Z.ltb_spec a (p + 8)); try reflexivity. lia.
Qed.
Lemma set_fields_ok heap vs : forall p h, (forall v, In v vs -> v <> None) -> 0 <= p ->
  p + 8 * Z.of_nat (List.length vs) <= 18446744073709551616 ->
  (forall a, p <= a < p + 8 * Z.of_nat (List.length vs) -> heap a = true) -> exists h', set_fields heap vs p h = Val h'.
Proof.
  induction vs as [|v vs IH]; intros p h Hv Hp Hw1 Hh; cbn [set_fields List.length] in *; [eauto|].
  destruct v as [v|]; [|now elim (Hv None ltac:(now left))]. rewrite Nat2Z.inj_succ in *. rewrite (word_id p) by (unfold is_word; lia).
  replace (ok8 heap p) with true; [apply IH; try lia; [intros; apply Hv; now right|intros; apply Hh; lia]|].
  symmetry. unfold ok8. rewrite !Hh by lia. reflexivity.
Qed.

(** A constructor: the object it returns has the arguments in its fields. *)
Lemma cons_code N d fd tag id descr vs h n rs m fl q p h1 :
  In fd (w_prog w) -> nth_error (w_code w) n = Some (EFn (f_name fd)) -> f_body fd = BCons tag id descr ->
  List.length vs = List.length (f_params fd) -> (forall v, In v vs -> v <> None) ->
  in_use vs rs -> is_addr (rs rbp) -> rs rsp mod 16 = 8 ->
  w_lo w + w_room w + Z.of_nat (S d) * w_frame w <= rs rsp + 8 <= w_hi w -> agree (w_heap w) m h ->
  w_place w (if f_extret fd then load m (rs rsp) else word (load m (rs rsp) + 8)) = Some q ->
  ev_call w N d (w_alloc w) [Some (wint (object_size (List.length vs) tag)); Some (w_lit w descr); Some (wint id)] h = Val (Some p, h1) ->
  0 <= p -> p + object_size (List.length vs) tag <= 18446744073709551616 ->
  (forall a, p <= a < p + object_size (List.length vs) tag -> w_heap w a = true) ->
  exists rs' m' fl', runs w (MState n (rs, m, fl)) (MState q (rs', m', fl')) /\ rs' rax = p /\
    rs' rsp = rs rsp + 8 /\ rs' rbp = rs rbp /\ stack_kept w (rs rsp + 8) m m' /\
    (forall t, tag = Some t -> load m' p = wint t) /\
    (forall i v, nth_error vs i = Some (Some v) -> load m' (p + object_size i tag) = v) /\
    (forall a, w_heap w a = true -> a < p \/ p + object_size (List.length vs) tag <= a -> m' a = h1 a).
Proof.
  intros Hin Hn Hb Hlen Hsome Hu Hbp Ha Hst Hag Hq Hal Hp Hpw Hobj.
  pose proof (fun_code (S N) (S d) fd vs h n rs m fl q Hin Hn Hu Hbp Ha Hst Hag Hq) as H.
  assert (Htk : forall l k, k = List.length l -> take_args k l = l).
  { induction l as [|x l IH]; intros k ->; cbn; [reflexivity|]. now rewrite IH. }
  set (fs := object_fields tag vs).
  assert (Hfl : 8 * Z.of_nat (List.length fs) = object_size (List.length vs) tag).
  { unfold fs, object_fields, object_size. destruct tag; cbn [List.length]; lia. }
  assert (Hfs : forall v, In v fs -> v <> None).
  { unfold fs, object_fields. destruct tag; [intros v [<-|Hv]; [discriminate|auto]|auto]. }
  assert (Hfa : forall v, In (Some v) fs -> is_addr v).
  { unfold fs, object_fields. destruct tag; [intros v [E|Hv]|intros v Hv]; [injection E as <-|now apply Hu|now apply Hu].
    unfold wint, word, is_addr. apply Z.mod_pos_bound. lia. }
  destruct (set_fields_ok (w_heap w) fs p h1 Hfs Hp ltac:(lia) ltac:(rewrite Hfl; exact Hobj)) as [h2 Hset].
  destruct (set_fields_spec (w_heap w) fs p h1 h2 Hset Hp ltac:(lia) Hfa) as [F1 F2].
  assert (E : ev_fun w (S N) (S d) fd vs h = Val (Some p, h2)).
  { unfold ev_fun. change (match f_body fd with
      | BExpr e => ev w N d (bind_params (f_params fd) vs) h e
      | BBlock b => bind (ev_list w N d (bind_params (f_params fd) vs) h b) (fun '(o, _, h) =>
          match o with OReturn v => Val (v, h) | ONormal => if kind_eqb (f_ret fd) TNothing then Val (None, h) else Stuck end)
      | BCons tag id descr => need (ev_call w N d (w_alloc w) [Some (wint (object_size (List.length (f_params fd)) tag));
                                Some (w_lit w descr); Some (wint id)] h) (fun p h =>
          bind (set_fields (w_heap w) (object_fields tag (take_args (List.length (f_params fd)) vs)) p h) (fun h => Val (Some p, h)))
      end = Val (Some p, h2)).
    rewrite Hb, <- Hlen, Hal. unfold need. cbn [bind]. rewrite (Htk vs _ eq_refl). fold fs. rewrite Hset. reflexivity. }
  rewrite E in H. destruct H as (st' & S1 & rs' & m' & fl' & -> & [R1 _] & R2 & R3 & R4 & R5).
  assert (Hm : forall i v, nth_error fs i = Some (Some v) -> load m' (p + 8 * Z.of_nat i) = v).
  { intros i v Hi. rewrite <- (F1 i v Hi). apply load_ext. intros j Hj. apply R4. apply Hobj.
    assert (i < List.length fs)%nat by (apply nth_error_Some; congruence). lia. }
  exists rs', m', fl'. split; [exact S1|]. split; [exact R1|]. split; [exact R2|]. split; [exact R3|]. split; [exact R5|].
  split; [|split].
  - intros t ->. rewrite <- (Hm 0%nat (wint t) eq_refl). f_equal. lia.
  - intros i v Hi. unfold fs, object_fields, object_size in *. destruct tag as [t|].
    + rewrite <- (Hm (S i) v Hi). f_equal. lia.
    + rewrite <- (Hm i v Hi). f_equal. lia.
  - intros a Hh Ho. rewrite (R4 a Hh). apply F2. lia.
Qed.

(** Reading a field. *)
Lemma dot_read N d slot T B us r h s c s' n rs m fl t l u z p h1 :
  gen_expr slot (EDot t l (EOff u z)) false s = Some (c, s') -> code_at (w_code w) n c -> lits_in w s' ->
  safe (List.length us) l = true -> imm32 z = true -> List.length us = regs_in_use s ->
  inside w slot T B (g_sp s) us r h rs m -> stack_left w d (pushes (EDot t l (EOff u z))) rs ->
  ev w (S N) d r h l = Val (Some p, h1) -> 0 <= p + z < 18446744073709551616 -> ok8 (w_heap w) (p + z) = true ->
  exists rs' m' fl', runs w (MState n (rs, m, fl)) (MState (n + List.length c) (rs', m', fl')) /\
    rs' rax = load h1 (p + z) /\ stack_kept w (rs rsp) m m' /\ inside w slot T B (g_sp s) us r h1 rs' m'.
Proof.
  intros Hg Hc Hl Hs Hz Hu Hi Hst He Hr Hok.
  assert (Hsafe : safe (List.length us) (EDot t l (EOff u z)) = true) by (cbn [safe]; now rewrite Hs, Hz).
  pose proof (expr_code (S (S (S N))) d slot T B us r h s c s' n rs m fl _ Hg Hc Hl Hsafe Hu Hi Hst) as H.
  assert (E : ev w (S (S (S N))) d r h (EDot t l (EOff u z)) = Val (Some (load h1 (p + z)), h1)).
  { change (bind (need (ev w (S N) d r h l) (fun a h => need (Val (Some (word z), h)) (fun b h => Val (word (a + b), h))))
      (fun '(a, h) => if ok8 (w_heap w) a then Val (Some (load h a), h) else Stuck) = Val (Some (load h1 (p + z)), h1)).
    rewrite He. unfold need. cbn [bind].
    assert (Ew : word (p + word z) = p + z).
    { rewrite <- (word_id (p + z)) by (unfold is_word; lia). apply word_cong. destruct (word_ex z) as [k ->]. exists k. lia. }
    rewrite Ew, Hok. reflexivity. }
  rewrite E in H. destruct H as (st' & S1 & rs' & m' & fl' & -> & [R1 _] & _ & _ & R4 & R5). exists rs', m', fl'. auto.
Qed.

(** Writing a field: this field changes and nothing else. *)
Lemma dot_write N d slot T B r h s c s' n q rs m fl ext t l u z e v h1 p h2 :
  gen_stmt slot ext (SAs (EDot t l (EOff u z)) e) s = Some (c, s') -> code_at (w_code w) n c -> lits_in w s' ->
  safe 0 l = true -> safe 0 e = true -> imm32 z = true -> regs_in_use s = 0%nat -> g_sp s = T ->
  (forall x, In x (expr_vars l ++ expr_vars e) -> slot x <> 0) ->
  inside w slot T B T [] r h rs m -> stack_left w d (pushes_stmt (SAs (EDot t l (EOff u z)) e)) rs ->
  w_place w (if ext then load m (B + 8) else word (load m (B + 8) + 8)) = Some q ->
  ev w (S (S N)) d r h e = Val (Some v, h1) -> ev w (S N) d r h1 l = Val (Some p, h2) -> is_addr v ->
  0 <= p + z < 18446744073709551616 -> ok8 (w_heap w) (p + z) = true ->
  exists rs' m' fl', runs w (MState n (rs, m, fl)) (MState (n + List.length c) (rs', m', fl')) /\
    stack_kept w B m m' /\ inside w slot T B T [] r (store h2 (p + z) v) rs' m' /\
    load m' (p + z) = v /\
    (forall a, w_heap w a = true -> a < p + z \/ p + z + 8 <= a -> m' a = h2 a).
Proof.
  intros Hg Hc Hl Hsl Hse Hz Hu Hsp Hv Hi Hst Hq Hee Hel Hva Hr Hok.
  assert (Hsafe : safe_stmt (SAs (EDot t l (EOff u z)) e) = true) by (cbn [safe_stmt safe]; now rewrite Hsl, Hse, Hz).
  assert (Hv' : forall x, In x (stmt_vars (SAs (EDot t l (EOff u z)) e)) -> slot x <> 0).
  { intros x Hx. apply Hv. cbn [stmt_vars expr_vars] in Hx. rewrite app_nil_r in Hx. exact Hx. }
  pose proof (stmt_code (S (S (S N))) d slot ext T B r h s c s' n q rs m fl _ Hg Hc Hl Hsafe Hu Hsp Hv' Hi Hst Hq) as H.
  assert (E : exec_stmt (w_heap w) (w_lit w) (w_fun_addr w) (w_fun_at w) (w_extern w) (w_abstract w) (w_alloc w) (w_prog w) (S (S (S N))) d r h
    (SAs (EDot t l (EOff u z)) e) = Val (ONormal, r, store h2 (p + z) v)).
  { change (need (ev w (S (S N)) d r h e) (fun v h => bind (need (ev w (S N) d r h l) (fun a h => need (Val (Some (word z), h)) (fun b h => Val (word (a + b), h))))
      (fun '(a, h) => if ok8 (w_heap w) a then Val (ONormal, r, store h a v) else Stuck)) = Val (ONormal, r, store h2 (p + z) v)).
    rewrite Hee. unfold need. cbn [bind]. rewrite Hel. cbn [bind].
    assert (Ew : word (p + word z) = p + z).
    { rewrite <- (word_id (p + z)) by (unfold is_word; lia). apply word_cong. destruct (word_ex z) as [k ->]. exists k. lia. }
    rewrite Ew, Hok. reflexivity. }
  rewrite E in H. destruct H as (st' & S1 & rs' & m' & fl' & -> & R1 & R2). exists rs', m', fl'.
  split; [exact S1|]. split; [exact R1|]. split; [exact R2|].
  pose proof (iv_heap _ _ _ _ _ _ _ _ _ _ _ _ R2) as Hag. split.
  - rewrite (agree_load (w_heap w) _ _ _ Hag Hok), load_store_same. now apply word_id.
  - intros a Ha Ho. rewrite (Hag a Ha). unfold store. destruct (Z.leb_spec (p + z) a), (Z.ltb_spec a (p + z + 8)); try reflexivity. lia.
Qed.

(* ------------------------------------------------- functions over ints and bools *)

(** The parameters of a function called with [args]. *)
Fixpoint bind_vals (ps : list (nat * ty)) (args : list pval) : nat -> option pval :=
  match ps with
  | [] => fun _ => None
  | (x, _) :: r => fun y => if Nat.eqb x y then hd_error args else bind_vals r (tl args) y
  end.
Definition words (args : list pval) : list value := map (fun v => Some (word_of v)) args.
Lemma bind_vals_holds ps : forall args, (forall v, In v args -> in_range v) -> holds (bind_vals ps args) (bind_params ps (words args)).
Proof.
  induction ps as [|[x t] ps IH]; intros args Ha y v H; cbn [bind_vals bind_params] in *; [discriminate|].
  destruct (Nat.eqb x y).
  - destruct args as [|a args]; [discriminate|]. injection H as <-. split; [apply Ha; now left|reflexivity].
  - assert (Ht : tl (words args) = words (tl args)) by now destruct args. rewrite Ht. apply IH; [|exact H].
    intros u Hu. apply Ha. destruct args; [destruct Hu|now right].
Qed.

Lemma plain_fun fd args x h n rs m fl q :
  In fd (w_prog w) -> nth_error (w_code w) n = Some (EFn (f_name fd)) ->
  (forall v, In v args -> in_range v) -> args_in (words args) rs ->
  is_addr (rs rbp) -> rs rsp mod 16 = 8 -> w_lo w + w_room w + w_frame w <= rs rsp + 8 <= w_hi w -> agree (w_heap w) m h ->
  w_place w (if f_extret fd then load m (rs rsp) else word (load m (rs rsp) + 8)) = Some q ->
  returns (bind_vals (f_params fd) args) fd x ->
  match x with
  | Some v => exists rs' m' fl', runs w (MState n (rs, m, fl)) (MState q (rs', m', fl')) /\
      match v with Some v => rs' rax = word_of v | None => True end /\
      rs' rsp = rs rsp + 8 /\ rs' rbp = rs rbp /\ agree (w_heap w) m' h /\ stack_kept w (rs rsp + 8) m m'
  | None => exists st', runs w (MState n (rs, m, fl)) st' /\ at_division_by_zero (w_code w) st'
  end.
Proof.
  intros Hin Hn Hr Ha Hb Hal Hst Hag Hq Hx.
  destruct (run_returns (w_heap w) (w_lit w) (w_fun_addr w) (w_fun_at w) (w_extern w) (w_abstract w) (w_alloc w) (w_prog w) 0 h
    _ fd _ x Hx (bind_vals_holds (f_params fd) args Hr)) as [N HN].
  assert (Hu : in_use (words args) rs).
  { split; [exact Ha|]. intros v Hv. apply in_map_iff in Hv as (u & E & Hu). injection E as <-.
    destruct u as [z|[|]]; cbn [word_of]; [unfold word, is_addr; apply Z.mod_pos_bound; lia|unfold is_addr; lia|unfold is_addr; lia]. }
  pose proof (fun_code N 1 fd (words args) h n rs m fl q Hin Hn Hu Hb Hal ltac:(lia) Hag Hq) as H.
  unfold ev_fun in H. rewrite HN in H. destruct x as [v|]; [|exact H].
  destruct H as (st' & S1 & rs' & m' & fl' & -> & R1 & R2 & R3 & R4 & R5). exists rs', m', fl'.
  split; [exact S1|]. split; [|auto]. destruct v as [v|]; [apply R1|exact I].
Qed.
End World.

(* ------------------------------------------------------------------------ variables *)

(** The variables of a function: its parameters and those occurring in its body. *)
Definition variable_of (fd : fundef) (x : nat) : Prop := In x (map fst (f_params fd)) \/ In x (body_vars (f_body fd)).

Lemma slots_apart fd t l : fn_slots fd = (t, l) ->
  (forall x, variable_of fd x -> 8 <= get_slot l x <= 8 * t /\ get_slot l x mod 8 = 0) /\
  (forall x y, variable_of fd x -> variable_of fd y -> x <> y -> 8 <= Z.abs (get_slot l x - get_slot l y)).
Proof.
  intros Hf. pose proof (fn_slots_ok fd) as H. rewrite Hf in H. destruct H as (H1 & H2 & [H3 H4] & H5 & _).
  assert (G : forall x, variable_of fd x -> 8 <= get_slot l x <= 8 * t /\ get_slot l x mod 8 = 0).
  { intros x Hx. specialize (H5 x Hx). apply get_slot_in in H5. apply H3 in H5. lia. }
  split; [exact G|]. intros x y Hx Hy Hne. destruct (G x Hx) as [A1 A2]. destruct (G y Hy) as [B1 B2].
  assert (get_slot l x <> get_slot l y); [|lia]. intros E. apply Hne.
  pose proof (get_slot_in l x (H5 x Hx)) as I1. pose proof (get_slot_in l y (H5 y Hy)) as I2. rewrite <- E in I2.
  clear - H4 I1 I2. revert H4 I1 I2. generalize (get_slot l x) as z. induction l as [|[a b] l IH]; intros z Hn I1 I2; [destruct I1|].
  cbn in Hn. apply NoDup_cons_iff in Hn as [Hn1 Hn2]. destruct I1 as [E1|I1], I2 as [E2|I2]; [congruence| | |eauto].
  - elim Hn1. injection E1 as _ ->. apply in_map_iff. exists (y, z). auto.
  - elim Hn1. injection E2 as _ ->. apply in_map_iff. exists (x, z). auto.
Qed.
