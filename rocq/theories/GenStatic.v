(** What the code generator does to its own state, and how to take a generated piece
    of code apart. *)
From Coq Require Import ZArith List Bool String Lia.
From Verif Require Import X86 GenModel.
Import ListNotations.
Open Scope Z_scope.

(* ---------------------------------------------------------------------- inversion *)

Lemma seq_inv a b s c s2 : seq a b s = Some (c, s2) ->
  exists c1 s1 c2, a s = Some (c1, s1) /\ b s1 = Some (c2, s2) /\ c = c1 ++ c2.
Proof.
  unfold seq. destruct (a s) as [[c1 s1]|]; [|discriminate].
  destruct (b s1) as [[c2 s2']|] eqn:E; [|discriminate]. intros H. injection H as <- <-. eauto 6.
Qed.
Lemma emit_inv e s c s' : emit e s = Some (c, s') -> c = [e] /\ s' = s.
Proof. intros H. now injection H as <- <-. Qed.
Lemma ins_inv i o s c s' : ins i o s = Some (c, s') -> c = [EIns i o] /\ s' = s.
Proof. apply emit_inv. Qed.
Lemma nop_inv s c s' : nop s = Some (c, s') -> c = [] /\ s' = s.
Proof. intros H. now injection H as <- <-. Qed.
Lemma modify_inv f s c s' : modify f s = Some (c, s') -> c = [] /\ s' = f s.
Proof. intros H. now injection H as <- <-. Qed.
Lemma with_reg_inv i k s c s' : with_reg i k s = Some (c, s') ->
  exists r, nth_error arg_regs i = Some r /\ k r s = Some (c, s').
Proof. unfold with_reg. destruct (nth_error arg_regs i); [eauto|discriminate]. Qed.
Lemma displace_inv r d k s c s' : displace r d k s = Some (c, s') ->
  -32768 <= d <= 32767 /\ k (Mem r None d 0 false true) s = Some (c, s').
Proof.
  unfold displace. destruct ((d <? -32768) || (32767 <? d)) eqn:E; [discriminate|]. intros H. split; [lia|exact H].
Qed.
Lemma save_inv r s c s' : save r s = Some (c, s') -> c = [EIns pushq [OReg r]] /\ s' = set_sp (fun x => x + 1) s.
Proof. intros H. now injection H as <- <-. Qed.
Lemma restore_inv r s c s' : restore r s = Some (c, s') -> c = [EIns popq [OReg r]] /\ s' = set_sp (fun x => x - 1) s.
Proof. intros H. now injection H as <- <-. Qed.
Lemma untag_inv k r s c s' : untag_as k r s = Some (c, s') ->
  k = TInteger /\ c = [EIns sarq [OImm 1; OReg r]] /\ s' = s.
Proof. unfold untag_as, tag_len_for. destruct k; try discriminate. intros H. now injection H as <- <-. Qed.
Lemma tag_inv k r s c s' : tag_as k r s = Some (c, s') ->
  k = TInteger /\ c = [EIns shlq [OImm 1; OReg r]; EIns orq [OImm 1; OReg r]] /\ s' = s.
Proof. unfold tag_as, tag_len_for, tag_for. destruct k; try discriminate. intros H. now injection H as <- <-. Qed.
Lemma tag_for_inv k g s c s' : tag_for k g s = Some (c, s') -> k = TInteger /\ g 1 s = Some (c, s').
Proof. unfold tag_for. destruct k; try discriminate. auto. Qed.
Lemma new_label_inv p k s c s' : new_label p k s = Some (c, s') ->
  exists c', c = EFlush :: c' /\ k (LGen p (g_lab s)) (set_lab S s) = Some (c', s').
Proof.
  unfold new_label. intros H. apply seq_inv in H as (c1 & s1 & c2 & H1 & H2 & ->).
  apply emit_inv in H1 as [-> ->]. exists c2. split; [reflexivity|exact H2].
Qed.

(** What is kept of the literals. *)
Definition extends (l l' : list (list Z)) : Prop := exists r, l' = l ++ r.
Lemma extends_refl l : extends l l.
Proof. exists []. now rewrite app_nil_r. Qed.
Lemma extends_trans a b c : extends a b -> extends b c -> extends a c.
Proof. intros [x ->] [y ->]. exists (x ++ y). now rewrite app_assoc. Qed.
Lemma extends_nth a b n x : extends a b -> nth_error a n = Some x -> nth_error b n = Some x.
Proof. intros [r ->] H. rewrite nth_error_app1; [exact H|]. apply nth_error_Some. now rewrite H. Qed.

Lemma find_lit_nth txt l : forall k n, find_lit k l txt = Some n -> (k <= n)%nat /\ nth_error l (n - k) = Some txt.
Proof.
  induction l as [|x l IH]; intros k n H; [discriminate|]. cbn in H.
  destruct (list_eq_dec Z.eq_dec x txt) as [->|_].
  - injection H as <-. split; [lia|]. now rewrite Nat.sub_diag.
  - apply IH in H as [H1 H2]. split; [lia|]. replace (n - k)%nat with (S (n - S k)) by lia. exact H2.
Qed.
Lemma string_lit_inv txt k s c s' : string_lit txt k s = Some (c, s') ->
  exists n c' s1, c = EFlush :: c' /\ k (OAddr (LLit n) 8) s1 = Some (c', s') /\
    nth_error (g_lits s1) n = Some txt /\ extends (g_lits s) (g_lits s1) /\
    g_sp s1 = g_sp s /\ g_reg s1 = g_reg s /\ g_roots s1 = g_roots s /\ g_scopes s1 = g_scopes s /\
    g_maps s1 = g_maps s /\ g_id s1 = g_id s /\ g_lab s1 = g_lab s.
Proof.
  unfold string_lit. destruct (find_lit 0 (g_lits s) txt) as [n|] eqn:E; intros H;
    apply seq_inv in H as (c1 & s1 & c2 & H1 & H2 & ->); apply emit_inv in H1 as [-> ->].
  - apply find_lit_nth in E as [_ E]. rewrite Nat.sub_0_r in E.
    exists n, c2, s. repeat split; auto using extends_refl.
  - eexists _, c2, _. split; [reflexivity|]. split; [exact H2|]. cbn. split; [|split; [exists [txt]; reflexivity|repeat split]].
    rewrite nth_error_app2, Nat.sub_diag by lia. reflexivity.
Qed.

Ltac ginv1 H :=
  lazymatch type of H with
  | seq _ _ _ = Some _ =>
      let c1 := fresh "c" in let s1 := fresh "s" in let c2 := fresh "c" in
      let H1 := fresh "G" in let H2 := fresh "G" in
      apply seq_inv in H as (c1 & s1 & c2 & H1 & H2 & ->); ginv1 H1; ginv1 H2
  | emit _ _ = Some _ => apply emit_inv in H as [-> ->]
  | ins _ _ _ = Some _ => apply ins_inv in H as [-> ->]
  | nop _ = Some _ => apply nop_inv in H as [-> ->]
  | panic _ = Some _ => discriminate H
  | modify _ _ = Some _ => apply modify_inv in H as [-> ->]
  | inc_sp _ _ = Some _ => apply modify_inv in H as [-> ->]
  | dec_sp _ _ = Some _ => apply modify_inv in H as [-> ->]
  | save _ _ = Some _ => apply save_inv in H as [-> ->]
  | restore _ _ = Some _ => apply restore_inv in H as [-> ->]
  | untag_as _ _ _ = Some _ => let K := fresh "K" in apply untag_inv in H as (K & -> & ->)
  | tag_as _ _ _ = Some _ => let K := fresh "K" in apply tag_inv in H as (K & -> & ->)
  | tag_for _ _ _ = Some _ => let K := fresh "K" in apply tag_for_inv in H as [K H]; ginv1 H
  | displace _ _ _ _ = Some _ => let K := fresh "D" in apply displace_inv in H as [K H]; ginv1 H
  | with_reg _ _ _ = Some _ =>
      let r := fresh "r" in let K := fresh "N" in apply with_reg_inv in H as (r & K & H); ginv1 H
  | new_label _ _ _ = Some _ =>
      let c1 := fresh "c" in apply new_label_inv in H as (c1 & -> & H); ginv1 H
  | string_lit _ _ _ = Some _ =>
      let n := fresh "n" in let c1 := fresh "c" in let s1 := fresh "s" in
      let A := fresh "SL" in
      apply string_lit_inv in H as (n & c1 & s1 & -> & H & A); ginv1 H
  | _ => idtac
  end.
Tactic Notation "ginv" hyp(H) := ginv1 H; subst.

(* ------------------------------------------------------- induction over expressions *)

Lemma expr_ind' (Q : expr -> Prop) :
  (forall t z, Q (ELitInt t z)) -> (forall t b, Q (ELitBool t b)) -> (forall t s, Q (ELitStr t s)) ->
  (forall t op l r, Q l -> Q r -> Q (ELogic t op l r)) ->
  (forall t op l r, Q l -> Q r -> Q (EArith t op l r)) ->
  (forall t e, Q e -> Q (ENot t e)) -> (forall t e, Q e -> Q (EBNot t e)) -> (forall t e, Q e -> Q (ENeg t e)) ->
  (forall t op l r, Q l -> Q r -> Q (ECmp t op l r)) ->
  (forall t op l r, Q l -> Q r -> Q (EShift t op l r)) ->
  (forall t x, Q (EVar t x)) -> (forall t f b, Q (EFun t f b)) -> (forall t z, Q (EOff t z)) ->
  (forall t c a b, Q c -> Q a -> Q b -> Q (ECond t c a b)) ->
  (forall t e, Q e -> Q (EArrayLit t e)) ->
  (forall t fi f args, Forall Q args -> Q (ECall t fi f args)) ->
  (forall t fi x args, Forall Q args -> Q (ECallVar t fi x args)) ->
  (forall t fi e args, Q e -> Forall Q args -> Q (ECallExpr t fi e args)) ->
  (forall t l r, Q l -> Q r -> Q (EDot t l r)) ->
  (forall t a i, Q a -> Q i -> Q (EIndex t a i)) ->
  (forall t, Q (EType t)) ->
  forall e, Q e.
Proof.
  intros h1 h2 h3 h4 h5 h6 h7 h8 h9 h10 h11 h12 h13 h14 h15 h16 h17 h18 h19 h20 h21. fix IH 1. intros e.
  assert (IHs : forall l, Forall Q l).
  { fix IHs 1. intros [|a l]; constructor; [apply IH|apply IHs]. }
  destruct e; [apply h1|apply h2|apply h3|apply h4; apply IH|apply h5; apply IH|apply h6; apply IH|apply h7; apply IH
    |apply h8; apply IH|apply h9; apply IH|apply h10; apply IH|apply h11|apply h12|apply h13|apply h14; apply IH
    |apply h15; apply IH|apply h16; apply IHs|apply h17; apply IHs|apply h18; [apply IH|apply IHs]
    |apply h19; apply IH|apply h20; apply IH|apply h21].
Qed.

(** The inner loops of the mutual definitions. *)
Lemma gen_expr_call slot t fi f args ta :
  gen_expr slot (ECall t fi f args) ta =
  seq spill_registers (seq (gen_args slot fi 0 args) (finish_call fi (CName f))).
Proof. reflexivity. Qed.
Lemma gen_expr_call_var slot t fi x args ta :
  gen_expr slot (ECallVar t fi x args) ta =
  seq spill_registers (seq (gen_args slot fi 0 args) (finish_call fi (CSlot (slot x)))).
Proof. reflexivity. Qed.
Lemma gen_expr_call_expr slot t fi e args ta :
  gen_expr slot (ECallExpr t fi e args) ta =
  seq (gen_expr slot e false) (seq (save rax)
    (seq spill_registers (seq (gen_args slot fi 0 args) (finish_call fi CSaved)))).
Proof. reflexivity. Qed.

(* --------------------------------------------------------- effect on the state *)

(** The stack depth and the registers in use; literals only grow. *)
Definition eff (s s' : gst) : Prop :=
  g_sp s' = g_sp s /\ g_reg s' = g_reg s /\ extends (g_lits s) (g_lits s').
Lemma eff_refl s : eff s s.
Proof. repeat split. apply extends_refl. Qed.
Lemma eff_trans a b c : eff a b -> eff b c -> eff a c.
Proof. unfold eff. intros (?&?&?) (?&?&?). repeat split; try congruence. eauto using extends_trans. Qed.

Lemma add_root_inv off t s c s' : add_root off t s = Some (c, s') -> c = [] /\ eff s s'.
Proof.
  unfold add_root. destruct (is_pointer t); intros H; ginv H; (split; [reflexivity|]).
  - repeat split. apply extends_refl.
  - apply eff_refl.
Qed.
Lemma remove_root_inv off t s c s' : remove_root off t s = Some (c, s') -> c = [] /\ eff s s'.
Proof.
  unfold remove_root. destruct (is_pointer t); [destruct (drop_root _ _ _); [|discriminate]|];
    intros H; injection H as <- <-; (split; [reflexivity|]).
  - repeat split. apply extends_refl.
  - apply eff_refl.
Qed.
Lemma gc_map_inv s c s' : gc_map s = Some (c, s') -> (exists l, c = [EAddr l]) /\ eff s s'.
Proof.
  unfold gc_map. destruct (g_roots s) eqn:E; intros H; injection H as <- <-; (split; [eauto|]).
  - apply eff_refl.
  - repeat split. apply extends_refl.
Qed.

(** The code of spilling and restoring registers. *)
Fixpoint spill_code (i : nat) (k : nat) : list event :=
  match k with
  | O => []
  | S k => spill_code (S i) k ++
           match nth_error arg_regs i with Some r => [EIns pushq [OReg r]] | None => [] end
  end.
Fixpoint unspill_code (i : nat) (k : nat) : list event :=
  match k with
  | O => []
  | S k => match nth_error arg_regs i with Some r => [EIns popq [OReg r]] | None => [] end ++
           unspill_code (S i) k
  end.

Lemma spill_inv ts : forall i s c s', spill i ts s = Some (c, s') ->
  c = spill_code i (List.length ts) /\ (i + List.length ts <= 6 \/ List.length ts = 0)%nat /\
  g_sp s' = g_sp s + Z.of_nat (List.length ts) /\ g_reg s' = g_reg s /\ extends (g_lits s) (g_lits s').
Proof.
  induction ts as [|t ts IH]; intros i s c s' H; cbn [spill] in H.
  - ginv H. cbn. repeat split; auto; try lia. apply extends_refl.
  - apply seq_inv in H as (c1 & s1 & c2 & H1 & H & ->). apply IH in H1 as (-> & I1 & I2 & I3 & I4).
    apply seq_inv in H as (c3 & s3 & c4 & H3 & H & ->). ginv1 H3. subst.
    apply seq_inv in H as (c5 & s5 & c6 & H5 & H & ->). ginv1 H5. subst.
    apply add_root_inv in H as (-> & E1 & E2 & E3). cbn [List.length spill_code].
    rewrite N. cbn in E1, E2, E3. rewrite !app_nil_r. repeat split.
    + left. assert (i < List.length arg_regs)%nat by (apply nth_error_Some; rewrite N; discriminate).
      cbn in H. lia.
    + lia.
    + congruence.
    + eauto using extends_trans.
Qed.
Lemma unspill_inv ts : forall i s c s', unspill i ts s = Some (c, s') ->
  c = unspill_code i (List.length ts) /\
  g_sp s' = g_sp s - Z.of_nat (List.length ts) /\ g_reg s' = g_reg s /\ extends (g_lits s) (g_lits s').
Proof.
  induction ts as [|t ts IH]; intros i s c s' H; cbn [unspill] in H.
  - ginv H. cbn. repeat split; auto; try lia. apply extends_refl.
  - apply seq_inv in H as (c1 & s1 & c2 & H1 & H & ->). ginv1 H1. subst.
    apply seq_inv in H as (c3 & s3 & c4 & H3 & H & ->).
    apply remove_root_inv in H3 as (-> & E1 & E2 & E3).
    apply seq_inv in H as (c5 & s5 & c6 & H5 & H & ->). ginv1 H5. subst.
    apply IH in H as (-> & I2 & I3 & I4). cbn [List.length unspill_code]. rewrite N.
    cbn in I2, I3, I4. repeat split.
    + lia.
    + congruence.
    + eauto using extends_trans.
Qed.

Definition in_use_types (s : gst) : list ty := hd [] (g_reg s).

Lemma spill_registers_inv s c s' : spill_registers s = Some (c, s') ->
  c = spill_code 0 (List.length (in_use_types s)) /\ (List.length (in_use_types s) <= 6)%nat /\
  g_sp s' = g_sp s + Z.of_nat (List.length (in_use_types s)) /\ g_reg s' = [] :: g_reg s /\
  extends (g_lits s) (g_lits s').
Proof.
  unfold spill_registers, in_use_types. destruct (g_reg s) as [|ts r] eqn:E; intros H; ginv H; cbn.
  - rewrite E. repeat split; try lia. apply extends_refl.
  - apply spill_inv in G as (-> & I1 & I2 & I3 & I4). rewrite app_nil_r. repeat split; auto; [lia|].
    rewrite I3. now rewrite E.
Qed.

Lemma restore_registers_inv s c s' : restore_registers s = Some (c, s') ->
  let ts := hd [] (tl (g_reg s)) in
  c = unspill_code 0 (List.length ts) /\
  g_sp s' = g_sp s - Z.of_nat (List.length ts) /\ g_reg s' = tl (g_reg s) /\
  extends (g_lits s) (g_lits s').
Proof.
  unfold restore_registers. intros H. apply seq_inv in H as (c1 & s1 & c2 & H1 & H & ->).
  ginv H1. cbn in H. destruct (tl (g_reg s)) as [|ts r] eqn:E.
  - injection H as <- <-. cbn. rewrite E. repeat split; [lia|apply extends_refl].
  - apply unspill_inv in H as (-> & I2 & I3 & I4). cbn in I2, I3, I4 |- *. repeat split; auto. congruence.
Qed.

Lemma register_in_use_inv t s c s' : register_in_use t s = Some (c, s') ->
  c = [] /\ g_sp s' = g_sp s /\ g_reg s' = (in_use_types s ++ [t]) :: tl (g_reg s) /\ g_reg s <> [] /\
  extends (g_lits s) (g_lits s').
Proof.
  unfold register_in_use, in_use_types. destruct (g_reg s) eqn:E; [discriminate|]. intros H. injection H as <- <-.
  cbn. repeat split; auto using extends_refl. discriminate.
Qed.

(** The code that passes an argument. *)
Definition pass_code (fi : fninfo) (r : reg) (t : ty) : list event :=
  EIns movq [OReg rax; OReg r] ::
  (if fi_external fi && fi_raw fi then
     match ty_kind t with
     | TString | TArray | TBytes => [EIns leaq [OMem (Mem r None 8 0 false true); OReg r]]
     | TInteger => [EIns sarq [OImm 1; OReg r]]
     | _ => []
     end
   else []).
Lemma pass_arg_inv fi i t s c s' : pass_arg fi i t s = Some (c, s') ->
  exists r, nth_error arg_regs i = Some r /\ c = pass_code fi r t /\
  g_sp s' = g_sp s /\ g_reg s' = (in_use_types s ++ [t]) :: tl (g_reg s) /\ g_reg s <> [] /\
  extends (g_lits s) (g_lits s').
Proof.
  unfold pass_arg. intros H. apply with_reg_inv in H as (r & N & H). exists r. split; [exact N|].
  apply seq_inv in H as (c1 & s1 & c2 & H1 & H & ->). ginv H1.
  apply seq_inv in H as (c3 & s3 & c4 & H3 & H & ->). apply register_in_use_inv in H3 as (-> & I1 & I2 & I3 & I4).
  unfold pass_code. destruct (fi_external fi && fi_raw fi).
  - destruct (ty_kind t); ginv H; auto.
  - ginv H. auto.
Qed.

(** The code of a call. *)
Definition call_code_of (fi : fninfo) (c : callee) (odd : bool) (gc : list event) (k : nat) : list event :=
  (if fi_variadic fi then [EIns movq [OImm 0; OReg rax]] else []) ++
  (match c with CSaved => [EIns popq [OReg rax]] | _ => [] end) ++
  (if odd then [EIns subq [OImm 8; OReg rsp]] else []) ++
  [match c with
   | CSaved => EIns call [OMem (Mem rax None 0 0 true false)]
   | CSlot a => EIns call [OMem (Mem rbp None (- a) 0 true true)]
   | CName f => EIns call [OFn f]
   end] ++
  (if fi_external fi && fi_raw fi && kind_eqb (fi_ret fi) TInteger
   then [EIns shlq [OImm 1; OReg rax]; EIns orq [OImm 1; OReg rax]] else []) ++
  gc ++
  (if odd then [EIns addq [OImm 8; OReg rsp]] else []) ++
  unspill_code 0 k.

Lemma finish_call_inv fi cl s c s' : finish_call fi cl s = Some (c, s') ->
  let sp := g_sp s - match cl with CSaved => 1 | _ => 0 end in
  let ts := hd [] (tl (g_reg s)) in
  exists gc, (if fi_external fi then gc = [] else exists l, gc = [EAddr l]) /\
  (match cl with CSlot a => -32768 <= - a <= 32767 | _ => True end) /\
  c = call_code_of fi cl (negb (sp mod 2 =? 0)) gc (List.length ts) /\
  g_sp s' = sp - Z.of_nat (List.length ts) /\ g_reg s' = tl (g_reg s) /\
  extends (g_lits s) (g_lits s').
Proof.
  unfold finish_call. intros H.
  apply seq_inv in H as (c1 & s1 & c2 & H1 & H & ->).
  apply seq_inv in H as (c3 & s3 & c4 & H3 & H & ->).
  apply seq_inv in H as (c5 & s5 & c6 & H5 & H & ->).
  apply seq_inv in H as (c7 & s7 & c8 & H7 & H & ->).
  apply seq_inv in H as (c9 & s9 & c10 & H9 & H & ->).
  apply seq_inv in H as (c11 & s11 & c12 & H11 & H & ->).
  apply seq_inv in H as (c13 & s13 & c14 & H13 & H & ->).
  assert (A1 : c1 = (if fi_variadic fi then [EIns movq [OImm 0; OReg rax]] else []) /\ s1 = s).
  { destruct (fi_variadic fi); ginv1 H1; auto. }
  destruct A1 as [-> ->].
  assert (A3 : c3 = (match cl with CSaved => [EIns popq [OReg rax]] | _ => [] end) /\
    s3 = match cl with CSaved => set_sp (fun x => x - 1) s | _ => s end).
  { destruct cl; ginv1 H3; auto. }
  destruct A3 as [-> ->].
  assert (A5 : c5 = (if negb ((g_sp s - match cl with CSaved => 1 | _ => 0 end) mod 2 =? 0)
                     then [EIns subq [OImm 8; OReg rsp]] else []) /\
    s5 = match cl with CSaved => set_sp (fun x => x - 1) s | _ => s end).
  { unfold sp_aligned in H5. destruct cl; cbn in H5 |- *; rewrite ?Z.sub_0_r;
      match goal with |- context [?a mod 2] => destruct (a mod 2 =? 0) end; ginv1 H5; auto. }
  destruct A5 as [-> ->].
  assert (A7 : c7 = [match cl with
   | CSaved => EIns call [OMem (Mem rax None 0 0 true false)]
   | CSlot a => EIns call [OMem (Mem rbp None (- a) 0 true true)]
   | CName f => EIns call [OFn f]
   end] /\ s7 = match cl with CSaved => set_sp (fun x => x - 1) s | _ => s end /\
   (match cl with CSlot a => -32768 <= - a <= 32767 | _ => True end)).
  { destruct cl; ginv1 H7; auto. }
  destruct A7 as (-> & -> & A7).
  assert (A9 : c9 = (if fi_external fi && fi_raw fi && kind_eqb (fi_ret fi) TInteger
   then [EIns shlq [OImm 1; OReg rax]; EIns orq [OImm 1; OReg rax]] else []) /\
   s9 = match cl with CSaved => set_sp (fun x => x - 1) s | _ => s end).
  { destruct (fi_external fi && fi_raw fi && kind_eqb (fi_ret fi) TInteger); ginv1 H9; auto. }
  destruct A9 as [-> ->].
  assert (A11 : (if fi_external fi then c11 = [] else exists l, c11 = [EAddr l]) /\
     eff (match cl with CSaved => set_sp (fun x => x - 1) s | _ => s end) s11).
  { destruct (fi_external fi). - ginv1 H11. subst. split; [auto|apply eff_refl]. - now apply gc_map_inv in H11. }
  destruct A11 as (A11 & E1 & E2 & E3).
  assert (Esp : g_sp s11 = g_sp s - match cl with CSaved => 1 | _ => 0 end).
  { rewrite E1. destruct cl; cbn; lia. }
  assert (Erg : g_reg s11 = g_reg s) by (rewrite E2; destruct cl; reflexivity).
  assert (Eli : extends (g_lits s) (g_lits s11)) by (destruct cl; exact E3).
  assert (A13 : c13 = (if negb ((g_sp s - match cl with CSaved => 1 | _ => 0 end) mod 2 =? 0)
                     then [EIns addq [OImm 8; OReg rsp]] else []) /\ s13 = s11).
  { unfold sp_aligned in H13. rewrite Esp in H13.
    destruct ((g_sp s - match cl with CSaved => 1 | _ => 0 end) mod 2 =? 0); ginv1 H13; auto. }
  destruct A13 as [-> ->].
  apply restore_registers_inv in H as (-> & I2 & I3 & I4). rewrite Erg in *.
  exists c11. split; [exact A11|]. split; [exact A7|]. split; [reflexivity|].
  split; [lia|]. split; [exact I3|]. eauto using extends_trans.
Qed.

Lemma gen_args_eff slot args : Forall (fun e => forall ta s c s', gen_expr slot e ta s = Some (c, s') -> eff s s') args ->
  forall fi i s c s', gen_args slot fi i args s = Some (c, s') ->
  g_sp s' = g_sp s /\ tl (g_reg s') = tl (g_reg s) /\ extends (g_lits s) (g_lits s').
Proof.
  induction 1 as [|a args Ha _ IH]; intros fi i s c s' H; cbn [gen_args] in H.
  - ginv H. repeat split. apply extends_refl.
  - apply seq_inv in H as (c1 & s1 & c2 & H1 & H & ->). apply Ha in H1 as (E1 & E2 & E3).
    apply seq_inv in H as (c3 & s3 & c4 & H3 & H & ->). apply pass_arg_inv in H3 as (r & _ & _ & I1 & I2 & _ & I3).
    apply IH in H as (J1 & J2 & J3). rewrite I2 in J2. cbn in J2.
    repeat split; try congruence. eauto using extends_trans.
Qed.

Lemma call_eff slot fi args cl s c s' :
  Forall (fun e => forall ta s c s', gen_expr slot e ta s = Some (c, s') -> eff s s') args ->
  seq spill_registers (seq (gen_args slot fi 0 args) (finish_call fi cl)) s = Some (c, s') ->
  g_sp s' = g_sp s - match cl with CSaved => 1 | _ => 0 end /\ g_reg s' = g_reg s /\ extends (g_lits s) (g_lits s').
Proof.
  intros IH H. apply seq_inv in H as (c1 & s1 & c2 & H1 & H & ->). apply seq_inv in H as (c3 & s3 & c4 & H3 & H & ->).
  apply spill_registers_inv in H1 as (-> & I1 & I2 & I3 & I4).
  eapply gen_args_eff in H3 as (J1 & J2 & J3); [|exact IH].
  apply finish_call_inv in H as (gc & _ & _ & _ & K1 & K2 & K3).
  rewrite J2, I3 in K1, K2. cbn [tl] in K1, K2. unfold in_use_types in *. repeat split.
  - lia.
  - congruence.
  - eauto using extends_trans.
Qed.

Lemma gen_expr_eff slot e : forall ta s c s', gen_expr slot e ta s = Some (c, s') -> eff s s'.
Proof.
  induction e using expr_ind'; intros ta s0 c0 s0' H0;
    try (rewrite gen_expr_call in H0 || rewrite gen_expr_call_var in H0 || rewrite gen_expr_call_expr in H0);
    try (apply call_eff in H0 as (A1 & A2 & A3); [|assumption]; repeat split; [lia|assumption|assumption]);
    try (cbn [gen_expr] in H0).
  all: try solve
    [ ginv H0;
      repeat match goal with
        | IH : forall ta s c s', gen_expr _ ?e ta s = Some (c, s') -> eff s s', G : gen_expr _ ?e _ _ = Some _ |- _ => apply IH in G
        end;
      unfold eff in *; cbn in *; repeat match goal with H : _ /\ _ |- _ => destruct H end;
      repeat split; try lia; try congruence; eauto 6 using extends_refl, extends_trans ].
  - ginv H0. destruct (_ || _) in G; [ginv G|]. destruct (_ || _) in G; ginv G; apply eff_refl.
  - destruct op; ginv H0;
      repeat match goal with
        | IH : forall ta s c s', gen_expr _ ?e ta s = Some (c, s') -> eff s s', G : gen_expr _ ?e _ _ = Some _ |- _ => apply IH in G
        end;
      unfold eff in *; cbn in *; repeat match goal with H : _ /\ _ |- _ => destruct H end;
      repeat split; try lia; try congruence; eauto 6 using extends_refl, extends_trans.
  - destruct b; ginv H0; apply eff_refl.
  - apply seq_inv in H0 as (c1 & s1 & c2 & H1 & H0 & ->). apply IHe in H1 as (A1 & A2 & A3).
    apply seq_inv in H0 as (c3 & s3 & c4 & H3 & H0 & ->). ginv H3.
    apply call_eff in H0 as (B1 & B2 & B3); [|assumption]. cbn in *. repeat split; [lia|congruence|eauto using extends_trans].
Qed.
