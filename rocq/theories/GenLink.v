(** A generated file, laid out in memory, satisfies the conditions the claims about
    generated code ask for: addresses of labels and functions, and the routines every
    program contains. *)
From Coq Require Import ZArith List Bool String Lia.
From Verif Require Import X86 GenModel GenSpec GenMem GenStatic GenSlots GenProgram GenLabels GenExec.
Import ListNotations.
Open Scope Z_scope.
Ltac Zify.zify_post_hook ::= Z.div_mod_to_equations.
Local Arguments Z.mul : simpl never.
Local Arguments Z.add : simpl never.
Local Arguments Z.sub : simpl never.
Local Arguments Z.of_nat : simpl never.
Local Arguments word : simpl never.
Local Arguments rset : simpl never.
Local Arguments load : simpl never.
Local Arguments store : simpl never.
Local Arguments store8 : simpl never.
Local Arguments w_shl : simpl never.
Local Arguments w_sar : simpl never.

(* --------------------------------------------------------------------------- layout *)

(** A layout of the program in memory: everything written takes 16 bytes from address
    2^40 on, except that the code after the word after a call starts 8 bytes after the call. *)
Definition code_base : Z := 1099511627776.
Definition code_addr (n : nat) : Z := code_base + 16 * Z.of_nat n.
Definition code_place (w : Z) : option nat :=
  let d := w - code_base in
  if d <? 0 then None
  else if d mod 16 =? 0 then Some (Z.to_nat (d / 16))
  else if d mod 16 =? 8 then Some (S (Z.to_nat (d / 16))) else None.
Definition link_fun (P : list event) (f : string) : Z :=
  match find_fn P f with Some i => code_addr i | None => 0 end.
Definition link_at (P : list event) (w : Z) : option string :=
  match code_place w with
  | Some i =>
    match nth_error P i with
    | Some (EFn f) => if w =? link_fun P f then Some f else None
    | _ => None
    end
  | None => None
  end.
Definition link_label (P : list event) (l : label) : Z :=
  match l with
  | LName f => link_fun P f
  | _ => match find_label P l with Some i => code_addr i | None => 0 end
  end.
Definition link_lit (P : list event) (lits : list (list Z)) (s : list Z) : Z :=
  match find_lit 0 lits s with Some n => link_label P (LLit n) + 8 | None => 0 end.

Lemma code_place_addr n : code_place (code_addr n) = Some n.
Proof.
  unfold code_place, code_addr. replace (code_base + 16 * Z.of_nat n - code_base) with (16 * Z.of_nat n) by lia.
  replace (16 * Z.of_nat n <? 0) with false by (symmetry; apply Z.ltb_ge; lia).
  replace (16 * Z.of_nat n mod 16) with 0 by lia. cbn. f_equal. lia.
Qed.
Lemma code_place_addr8 n : code_place (code_addr n + 8) = Some (S n).
Proof.
  unfold code_place, code_addr. replace (code_base + 16 * Z.of_nat n + 8 - code_base) with (16 * Z.of_nat n + 8) by lia.
  replace (16 * Z.of_nat n + 8 <? 0) with false by (symmetry; apply Z.ltb_ge; lia).
  replace ((16 * Z.of_nat n + 8) mod 16) with 8 by lia. cbn. do 2 f_equal. lia.
Qed.

Lemma find_lit_nodup l : forall k n s, NoDup l -> nth_error l n = Some s -> find_lit k l s = Some (k + n)%nat.
Proof.
  induction l as [|x l IH]; intros k n s Hd Hn; [destruct n; discriminate|].
  inversion Hd as [|? ? Hx Hl]; subst. cbn [find_lit]. destruct n as [|n].
  - injection Hn as ->. destruct (list_eq_dec Z.eq_dec s s); [|congruence]. f_equal. lia.
  - cbn in Hn. destruct (list_eq_dec Z.eq_dec x s) as [->|].
    + elim Hx. eapply nth_error_In; eauto.
    + rewrite (IH (S k) n s Hl Hn). f_equal. lia.
Qed.
Lemma find_label_lt P l : forall k i, find_label_from k P l = Some i -> (k <= i < k + List.length P)%nat.
Proof.
  induction P as [|e P IH]; intros k i H; [discriminate|]. cbn [List.length].
  assert (Hr : find_label_from (S k) P l = Some i -> (k <= i < k + S (List.length P))%nat).
  { intros H'. apply IH in H'. lia. }
  destruct e; cbn [find_label_from] in H; auto. destruct (label_eqb l l0); [|auto]. injection H as <-. lia.
Qed.
Lemma find_fn_lt P f : forall k i, find_fn_from k P f = Some i -> (k <= i < k + List.length P)%nat.
Proof.
  induction P as [|e P IH]; intros k i H; [discriminate|]. cbn [List.length].
  assert (Hr : find_fn_from (S k) P f = Some i -> (k <= i < k + S (List.length P))%nat).
  { intros H'. apply IH in H'. lia. }
  destruct e; cbn [find_fn_from] in H; auto. destruct (String.eqb f f0); [|auto]. injection H as <-. lia.
Qed.

Lemma code_at_mid a c b : code_at (a ++ c ++ b) (List.length a) c.
Proof.
  intros i e H. rewrite nth_error_app2 by lia. replace (List.length a + i - List.length a)%nat with i by lia.
  rewrite nth_error_app1; [exact H|]. apply nth_error_Some. congruence.
Qed.
Lemma code_at_shift a P n c : code_at P n c -> code_at (a ++ P) (List.length a + n) c.
Proof.
  intros H i e Hi. rewrite nth_error_app2 by lia.
  replace (List.length a + n + i - List.length a)%nat with (n + i)%nat by lia. now apply H.
Qed.
Lemma code_at_sub P n a c b : code_at P n (a ++ c ++ b) -> code_at P (n + List.length a) c.
Proof.
  intros H. apply code_at_app in H as [_ H]. now apply code_at_app in H as [H _].
Qed.

(** Every function's code is there. *)
Lemma gen_fns_in alloc fs fd : In fd fs -> forall s c s', gen_fns alloc fs s = Some (c, s') ->
  exists s1 c1 s2 n, gen_fn alloc fd s1 = Some (c1, s2) /\ code_at c n c1 /\ extends (g_lits s2) (g_lits s').
Proof.
  induction fs as [|f fs IH]; intros Hin s c s' H; [elim Hin|]. cbn [gen_fns] in H.
  apply seq_inv in H as (c1 & s1 & c2 & H1 & H & ->). destruct Hin as [->|Hin].
  - exists s, c1, s1, 0%nat. split; [exact H1|]. split.
    + apply (code_at_mid [] c1 c2).
    + apply chunk_fns in H. apply (ck_lits _ _ _ _ _ H).
  - destruct (IH Hin _ _ _ H) as (t1 & d & t2 & n & A1 & A2 & A3). exists t1, d, t2, (List.length c1 + n)%nat.
    split; [exact A1|]. split; [now apply code_at_shift|exact A3].
Qed.

(* --------------------------------------------------------------- the fixed routines *)

(** The text of a routine with code [body] between entry and exit. *)
Definition routine (name : string) (body : list event) : list event :=
  [EFn name; EIns enter [OImm 0; OImm 0]] ++ body ++ [EIns leave []; EIns ret []; EFlush].
Definition read_byte_body : list event :=
  [EIns sarq [OImm 1; OReg rsi]; EIns movsbq [OMem (Mem rdi (Some rsi) 0 1 false true); OReg rax]].
Definition read_int_body : list event :=
  [EIns sarq [OImm 1; OReg rsi]; EIns movq [OMem (Mem rdi (Some rsi) 0 8 false true); OReg rax]].
Definition write_byte_body : list event :=
  [EIns sarq [OImm 1; OReg rsi]; EIns leaq [OMem (Mem rdi (Some rsi) 0 1 false true); OReg rax];
   EIns movb [OReg8 dl; mderef rax]].
Definition write_int_body : list event :=
  [EIns sarq [OImm 1; OReg rsi]; EIns leaq [OMem (Mem rdi (Some rsi) 0 8 false true); OReg rax];
   EIns movq [OReg rdx; mderef rax]].
Definition unsafe_body : list event :=
  [EIns sarq [OImm 1; OReg rsi]; EIns leaq [mindex rdi rsi; OReg rax]].
Definition to_tagged_body : list event :=
  [EIns leaq [OMem (Mem rdi (Some rdi) 1 0 false true); OReg rax]].
Definition to_untagged_body : list event :=
  [EIns sarq [OImm 1; OReg rdi]; EIns movq [OReg rdi; OReg rax]].
Definition type_table_body : list event :=
  [EIns movabs [OAddr (LSym "typeInfoArray") 0; OReg rax]].
Definition ioob_code (ioob : string) : list event :=
  [ELabel LIoob; EIns andq [OImm (-16); OReg rsp]; EIns movq [OReg rbx; OReg rdi];
   EIns shlq [OImm 1; OReg rdi]; EIns orq [OImm 1; OReg rdi];
   EIns movq [mderef rax; OReg rsi]; EIns call [OFn ioob]].

Lemma seq_intro a b s c1 s1 c2 s2 : a s = Some (c1, s1) -> b s1 = Some (c2, s2) -> seq a b s = Some (c1 ++ c2, s2).
Proof. unfold seq. intros -> ->. reflexivity. Qed.

Lemma code_at_0 P c b : P = c ++ b -> code_at P 0 c.
Proof. intros ->. apply (code_at_mid [] c b). Qed.
Lemma at_app a P c : (exists n, code_at P n c) -> exists n, code_at (a ++ P) n c.
Proof. intros [n H]. exists (List.length a + n)%nat. now apply code_at_shift. Qed.
Lemma at_cons e P c : (exists n, code_at P n c) -> exists n, code_at (e :: P) n c.
Proof. apply (at_app [e]). Qed.
Lemma at_front P b c : (exists n, code_at P n c) -> exists n, code_at (P ++ b) n c.
Proof.
  intros [n H]. exists n. intros i e Hi. specialize (H i e Hi). rewrite nth_error_app1; [exact H|].
  apply nth_error_Some. congruence.
Qed.

(** Where they are. *)
Lemma routines_at ioob entry ts s c s' : gen_routines ioob entry ts s = Some (c, s') ->
  (exists n, code_at c n (routine "readByte" read_byte_body)) /\
  (exists n, code_at c n (routine "readInt" read_int_body)) /\
  (exists n, code_at c n (routine "writeByte" write_byte_body)) /\
  (exists n, code_at c n (routine "writeInt" write_int_body)) /\
  (exists n, code_at c n (ioob_code ioob)) /\
  (exists n, code_at c n (routine "unsafe" unsafe_body)) /\
  (exists n, code_at c n (routine "toTaggedInt" to_tagged_body)) /\
  (exists n, code_at c n (routine "toUntaggedInt" to_untagged_body)) /\
  (exists n, code_at c n (routine "typeInfoTable" type_table_body)).
Proof.
  intros H. unfold gen_routines in H.
  repeat match type of H with
  | seq (gen_type_table _) _ _ = _ => fail 1
  | seq _ _ _ = Some _ =>
      let c1 := fresh "c" in let s1 := fresh "s" in let c2 := fresh "c" in let H1 := fresh "H" in let H2 := fresh "H" in
      apply seq_inv in H as (c1 & s1 & c2 & H1 & H2 & ->);
      cbv in H1; injection H1 as <- <-; rename H2 into H
  end.
  apply seq_inv in H as (ct & st & cf & Ht & Hf & ->).
  unfold gen_type_table in Ht.
  apply seq_inv in Ht as (c1 & s1 & c2 & H1 & H & ->). apply seq_inv in H as (c3 & s3 & c4 & H3 & H & ->).
  apply seq_inv in H as (c5 & s5 & c6 & H5 & H & ->). apply seq_inv in H as (c7 & s7 & c8 & H7 & H & ->).
  cbv in H. injection H as <- <-.
  rewrite <- ?app_assoc. cbn [app].
  repeat split; (repeat first
    [ exists 0%nat; eapply code_at_0; cbv [routine ioob_code read_byte_body read_int_body write_byte_body write_int_body unsafe_body
        to_tagged_body to_untagged_body type_table_body app mindex mderef]; reflexivity
    | apply at_cons | apply at_app ]).
Qed.

Lemma arg0 v vs rs : args_in (Some v :: vs) rs -> rs rdi = v.
Proof. intros H. apply (H 0%nat v rdi); reflexivity. Qed.
Lemma arg1 a v vs rs : args_in (a :: Some v :: vs) rs -> rs rsi = v.
Proof. intros H. apply (H 1%nat v rsi); reflexivity. Qed.
Lemma arg2 a b v vs rs : args_in (a :: b :: Some v :: vs) rs -> rs rdx = v.
Proof. intros H. apply (H 2%nat v rdx); reflexivity. Qed.

Lemma word_index a i s : word (0 + a + word i * s) = word (a + s * i).
Proof.
  destruct (word_ex i) as [k ->]. apply word_cong. exists (k * s). ring.
Qed.
Lemma store8_other m a v x : x <> a -> store8 m a v x = m x.
Proof. unfold store8. intros H. destruct (Z.eqb_spec x a); congruence. Qed.

Section Machine.
Variable laddr : label -> Z.
Variable mext : string -> regs * memory -> option (regs * memory).
Variable mskips : string -> bool.
Variable addr : nat -> Z.
Variable place : Z -> option nat.
Variable P : list event.
Variable heap : Z -> bool.
Variable lo hi room : Z.
Notation STEP := (step laddr mext mskips addr place P).
Notation STEPS := (steps laddr mext mskips addr place P).
Hypothesis Hstack : 0 <= lo /\ hi < W.
Hypothesis Hheap : forall a, heap a = true -> is_addr a /\ (a < lo \/ hi <= a).

(** What the code of a routine between its entry and its exit has to do. *)
Definition body_does (body : list event) (vs : list value) (h : memory) (v : value) (h' : memory) : Prop :=
  forall rs m fl, args_in vs rs -> agree heap m h ->
    exists rs' m' fl', sx laddr body (rs, m, fl) = Some (rs', m', fl') /\ result_in v rs' /\
      rs' rsp = rs rsp /\ rs' rbp = rs rbp /\ agree heap m' h' /\ (forall a, lo <= a < hi -> m' a = m a).

Lemma args_in_set vs rs r v : args_in vs rs -> ~ In r arg_regs -> args_in vs (rset rs r v).
Proof.
  intros H Hr i x q Hi Hq. rewrite rset_other; [eapply H; eauto|]. intros ->. apply Hr. eapply nth_error_In; eauto.
Qed.

Lemma routine_contract f body vs h v h' k n : code_at P k (routine f body) -> find_fn P f = Some k ->
  is_addr (addr (S n)) /\ place (addr (S n)) = Some (S n) -> 16 <= room ->
  body_does body vs h v h' -> contract P STEPS heap lo hi room f vs h v h' n (S n).
Proof.
  intros Hc Hf [Had Hpl] Hroom Hb rs m fl Hn Hargs Hag Hal Hsp Hbp.
  unfold routine in Hc. apply code_at_app in Hc as [C1 Hc]. apply code_at_app in Hc as [C2 C3]. cbn [List.length] in C2, C3.
  set (a1 := rs rsp - 8). set (m1 := store m a1 (addr (S n))). set (rs1 := rset rs rsp a1).
  set (a2 := rs rsp - 16). set (m2 := store m1 a2 (rs rbp)). set (rs2 := rset (rset rs1 rsp a2) rbp a2).
  assert (W1 : word a1 = a1) by (apply word_id; unfold is_word, a1; lia).
  assert (W2 : word a2 = a2) by (apply word_id; unfold is_word, a2; lia).
  assert (S1 : STEP (MState n (rs, m, fl)) = Some (MState k (rs1, m1, fl))).
  { cbn [step]. rewrite Hn. cbn [aligned]. rewrite Hal. change (0 =? 0) with true. cbv iota. unfold call_named. rewrite Hf.
    unfold call_code, goto, push. fold a1. rewrite W1. reflexivity. }
  assert (S2 : sx laddr [EFn f; EIns enter [OImm 0; OImm 0]] (rs1, m1, fl) = Some (rset rs2 rsp a2, m2, fl)).
  { cbn [sx exec push]. unfold rs1. rewrite !rset_same. replace (a1 - 8) with a2 by (unfold a1, a2; lia). rewrite W2.
    change ((0 <=? 0) && (0 <? 65536)) with true. cbv iota.
    rewrite (rset_other (rset (rset rs rsp a1) rsp a2) rbp rsp) by discriminate. rewrite rset_same.
    rewrite (rset_other rs rsp rbp) by discriminate.
    replace (a2 - 0) with a2 by lia. rewrite W2. reflexivity. }
  assert (A2 : args_in vs (rset rs2 rsp a2)).
  { unfold rs2, rs1. repeat apply args_in_set; auto; intros X; cbn in X; intuition discriminate. }
  assert (G2 : agree heap m2 h).
  { unfold m2, m1. apply (agree_store_stack heap lo hi); auto; try (unfold a2, a1; lia).
    apply (agree_store_stack heap lo hi); auto; unfold a1; lia. }
  destruct (Hb _ _ fl A2 G2) as (rs3 & m3 & fl3 & X & R & Xsp & Xbp & G3 & M3).
  assert (Hsp2 : rset rs2 rsp a2 rsp = a2) by apply rset_same.
  assert (Hbp2 : rset rs2 rsp a2 rbp = a2) by (rewrite rset_other by discriminate; apply rset_same).
  rewrite Hsp2 in Xsp. rewrite Hbp2 in Xbp.
  assert (L1 : load m3 a2 = word (rs rbp)).
  { rewrite (load_ext m3 m2 a2); [apply load_store_same|]. intros i Hi. apply M3. unfold a2. lia. }
  assert (L2 : load m3 a1 = addr (S n)).
  { rewrite (load_ext m3 m2 a1) by (intros i Hi; apply M3; unfold a1; lia).
    unfold m2. rewrite load_store_other by (unfold a1, a2; lia). unfold m1. rewrite load_store_same. apply word_id, Had. }
  exists (rset (rset (rset rs3 rbp (rs rbp)) rsp a1) rsp (rs rsp)), m3, fl3.
  assert (S4 : sx laddr [EIns leave []] (rs3, m3, fl3) = Some (rset (rset rs3 rbp (rs rbp)) rsp a1, m3, fl3)).
  { cbn [sx exec]. rewrite Xbp, L1. rewrite (word_id (rs rbp)) by exact Hbp. replace (a2 + 8) with a1 by (unfold a1, a2; lia). now rewrite W1. }
  split; [|split; [|split; [|split; [|split]]]].
  - eapply steps_step; [exact S1|]. eapply steps_trans; [eapply sx_steps; [exact C1|exact S2]|].
    eapply steps_trans; [eapply sx_steps; [exact C2|exact X]|]. cbn [List.length].
    apply (code_at_app P _ [EIns leave []] [EIns ret []; EFlush]) in C3 as [C3 C4].
    eapply steps_trans; [eapply sx_steps; [exact C3|exact S4]|]. cbn [List.length] in *.
    apply code_at_cons in C4 as [C4 _].
    apply steps_one. cbn [step]. rewrite C4. rewrite rset_same, L2, Hpl. unfold goto.
    replace (a1 + 8) with (rs rsp) by (unfold a1; lia). rewrite word_id by (unfold is_word; lia). reflexivity.
  - destruct v as [w|]; [|exact I]. cbn in *. rewrite !rset_other by discriminate. exact R.
  - apply rset_same.
  - rewrite !rset_other by discriminate. apply rset_same.
  - exact G3.
  - intros a Ha. rewrite M3 by lia. unfold m2, m1. rewrite !store_other by (unfold a1, a2; lia). reflexivity.
Qed.

(** What the routines of every program do (runtime.clara:156-175, gc.clara:169-174). *)
Definition byte_value (b : Z) : Z := let b := b mod 256 in if b <? 128 then b else b - 256.
Definition runtime (table : Z) (f : string) (vs : list value) (h : memory) : option (value * memory) :=
  if String.eqb f "readByte" then
    match vs with
    | Some p :: Some i :: _ =>
        let a := word (p + ival i) in if heap a then Some (Some (word (byte_value (h a))), h) else None
    | _ => None
    end
  else if String.eqb f "readInt" then
    match vs with
    | Some p :: Some i :: _ =>
        let a := word (p + 8 * ival i) in if ok8 heap a then Some (Some (load h a), h) else None
    | _ => None
    end
  else if String.eqb f "writeByte" then
    match vs with
    | Some p :: Some i :: Some v :: _ =>
        let a := word (p + ival i) in if heap a then Some (None, store8 h a v) else None
    | _ => None
    end
  else if String.eqb f "writeInt" then
    match vs with
    | Some p :: Some i :: Some v :: _ =>
        let a := word (p + 8 * ival i) in if ok8 heap a then Some (None, store h a v) else None
    | _ => None
    end
  else if String.eqb f "unsafe" then
    match vs with Some p :: Some i :: _ => Some (Some (word (p + ival i)), h) | _ => None end
  else if String.eqb f "toTaggedInt" then
    match vs with Some p :: _ => Some (Some (word (2 * p + 1)), h) | _ => None end
  else if String.eqb f "toUntaggedInt" then
    match vs with Some p :: _ => Some (Some (word (ival p)), h) | _ => None end
  else if String.eqb f "typeInfoTable" then Some (Some table, h)
  else None.

Lemma read_byte_does p i vs h : heap (word (p + ival i)) = true ->
  body_does read_byte_body (Some p :: Some i :: vs) h (Some (word (byte_value (h (word (p + ival i)))))) h.
Proof.
  clear Hstack Hheap P place addr mext mskips room.
  intros Hh rs m fl Ha Hm. pose proof (arg0 _ _ _ Ha) as E0. pose proof (arg1 _ _ _ _ Ha) as E1.
  eexists _, m, _. split; [cbn [sx read_byte_body exec m_deref m_indir andb negb]; reflexivity|].
  split; [|split; [rewrite !rset_other by discriminate; reflexivity|split; [rewrite !rset_other by discriminate; reflexivity|split; [exact Hm|reflexivity]]]].
  cbn [result_in]. rewrite rset_same. unfold ea. cbn [m_disp m_base m_idx m_scl]. rewrite rset_same, rset_other by discriminate.
  change (1 <? 2) with true. cbv iota. rewrite E0, E1, sar1, word_index.
  replace (p + 1 * ival i) with (p + ival i) by lia. rewrite Hm by exact Hh. split; [reflexivity|apply word_range].
Qed.
Lemma read_int_does p i vs h : ok8 heap (word (p + 8 * ival i)) = true ->
  body_does read_int_body (Some p :: Some i :: vs) h (Some (load h (word (p + 8 * ival i)))) h.
Proof.
  clear Hstack Hheap P place addr mext mskips room.
  intros Hh rs m fl Ha Hm. pose proof (arg0 _ _ _ Ha) as E0. pose proof (arg1 _ _ _ _ Ha) as E1.
  eexists _, m, _. split; [cbn [sx read_int_body exec read write m_deref m_indir andb negb]; reflexivity|].
  split; [|split; [rewrite !rset_other by discriminate; reflexivity|split; [rewrite !rset_other by discriminate; reflexivity|split; [exact Hm|reflexivity]]]].
  cbn [result_in]. rewrite rset_same. unfold ea. cbn [m_disp m_base m_idx m_scl]. rewrite rset_same, rset_other by discriminate.
  change (8 <? 2) with false. cbv iota. rewrite E0, E1, sar1, word_index.
  rewrite (agree_load heap m h) by assumption. rewrite word_id by apply load_range. split; [reflexivity|apply load_range].
Qed.
Lemma write_byte_does p i v vs h : heap (word (p + ival i)) = true ->
  body_does write_byte_body (Some p :: Some i :: Some v :: vs) h None (store8 h (word (p + ival i)) v).
Proof.
  clear Hstack P place addr mext mskips room.
  intros Hh rs m fl Ha Hm. pose proof (arg0 _ _ _ Ha) as E0. pose proof (arg1 _ _ _ _ Ha) as E1. pose proof (arg2 _ _ _ _ _ Ha) as E2.
  eexists _, _, _. split; [cbn [sx write_byte_body exec m_deref m_indir andb negb mderef]; reflexivity|].
  split; [exact I|]. split; [rewrite !rset_other by discriminate; reflexivity|]. split; [rewrite !rset_other by discriminate; reflexivity|].
  assert (E : forall x, store8 m (ea (rset (rset rs rsi (w_sar (rs rsi) 1)) rax
     (ea (rset rs rsi (w_sar (rs rsi) 1)) {| m_base := rdi; m_idx := Some rsi; m_disp := 0; m_scl := 1; m_indir := false; m_deref := true |}))
     {| m_base := rax; m_idx := None; m_disp := 0; m_scl := 0; m_indir := false; m_deref := true |})
     (rset (rset rs rsi (w_sar (rs rsi) 1)) rax
     (ea (rset rs rsi (w_sar (rs rsi) 1)) {| m_base := rdi; m_idx := Some rsi; m_disp := 0; m_scl := 1; m_indir := false; m_deref := true |}) (parent dl)) x
     = store8 m (word (p + ival i)) v x).
  { intros x. unfold ea. cbn [m_disp m_base m_idx m_scl parent]. rewrite !rset_same.
    rewrite (rset_other rs rsi rdi) by discriminate. rewrite !(rset_other _ _ rdx) by discriminate.
    change (1 <? 2) with true. cbv iota. rewrite E0, E1, E2, sar1, word_index.
    replace (p + 1 * ival i) with (p + ival i) by lia. replace (0 + word (p + ival i) + 0) with (word (p + ival i)) by lia.
    now rewrite word_word. }
  split; intros a Hx; rewrite E.
  - unfold store8. destruct (a =? word (p + ival i)); [reflexivity|auto].
  - apply store8_other. intros ->. apply Hheap in Hh. lia.
Qed.
Lemma write_int_does p i v vs h : ok8 heap (word (p + 8 * ival i)) = true ->
  body_does write_int_body (Some p :: Some i :: Some v :: vs) h None (store h (word (p + 8 * ival i)) v).
Proof.
  clear Hstack P place addr mext mskips room.
  intros Hh rs m fl Ha Hm. pose proof (arg0 _ _ _ Ha) as E0. pose proof (arg1 _ _ _ _ Ha) as E1. pose proof (arg2 _ _ _ _ _ Ha) as E2.
  eexists _, _, _. split; [cbn [sx write_int_body exec read write m_deref m_indir andb negb mderef]; reflexivity|].
  split; [exact I|]. split; [rewrite !rset_other by discriminate; reflexivity|]. split; [rewrite !rset_other by discriminate; reflexivity|].
  assert (E : forall x, store m (ea (rset (rset rs rsi (w_sar (rs rsi) 1)) rax
     (ea (rset rs rsi (w_sar (rs rsi) 1)) {| m_base := rdi; m_idx := Some rsi; m_disp := 0; m_scl := 8; m_indir := false; m_deref := true |}))
     {| m_base := rax; m_idx := None; m_disp := 0; m_scl := 0; m_indir := false; m_deref := true |})
     (rset (rset rs rsi (w_sar (rs rsi) 1)) rax
     (ea (rset rs rsi (w_sar (rs rsi) 1)) {| m_base := rdi; m_idx := Some rsi; m_disp := 0; m_scl := 8; m_indir := false; m_deref := true |}) rdx) x
     = store m (word (p + 8 * ival i)) v x).
  { intros x. unfold ea. cbn [m_disp m_base m_idx m_scl parent]. rewrite !rset_same.
    rewrite (rset_other rs rsi rdi) by discriminate. rewrite !(rset_other _ _ rdx) by discriminate.
    change (8 <? 2) with false. cbv iota. rewrite E0, E1, E2, sar1, word_index.
    replace (0 + word (p + 8 * ival i) + 0) with (word (p + 8 * ival i)) by lia.
    now rewrite word_word. }
  split.
  - intros a Hx. rewrite E. apply (agree_store heap m h (word (p + 8 * ival i)) v Hm a Hx).
  - intros a Hx. rewrite E. apply (same_store_heap heap lo hi lo m (word (p + 8 * ival i)) v); auto; lia.
Qed.
Lemma unsafe_does p i vs h : body_does unsafe_body (Some p :: Some i :: vs) h (Some (word (p + ival i))) h.
Proof.
  clear Hstack Hheap P place addr mext mskips room.
  intros rs m fl Ha Hm. pose proof (arg0 _ _ _ Ha) as E0. pose proof (arg1 _ _ _ _ Ha) as E1.
  eexists _, m, _. split; [cbn [sx unsafe_body exec mindex m_deref m_indir andb negb]; reflexivity|].
  split; [|split; [rewrite !rset_other by discriminate; reflexivity|split; [rewrite !rset_other by discriminate; reflexivity|split; [exact Hm|reflexivity]]]].
  cbn [result_in]. rewrite rset_same. unfold ea. cbn [m_disp m_base m_idx m_scl]. rewrite rset_same, rset_other by discriminate.
  change (0 <? 2) with true. cbv iota. rewrite E0, E1, sar1, word_index.
  replace (p + 1 * ival i) with (p + ival i) by lia. split; [reflexivity|apply word_range].
Qed.
Lemma to_tagged_does p vs h : body_does to_tagged_body (Some p :: vs) h (Some (word (2 * p + 1))) h.
Proof.
  clear Hstack Hheap P place addr mext mskips room.
  intros rs m fl Ha Hm. pose proof (arg0 _ _ _ Ha) as E0.
  eexists _, m, _. split; [cbn [sx to_tagged_body exec m_deref m_indir andb negb]; reflexivity|].
  split; [|split; [rewrite !rset_other by discriminate; reflexivity|split; [rewrite !rset_other by discriminate; reflexivity|split; [exact Hm|reflexivity]]]].
  cbn [result_in]. rewrite rset_same. unfold ea. cbn [m_disp m_base m_idx m_scl].
  change (0 <? 2) with true. cbv iota. rewrite E0. replace (1 + p + p * 1) with (2 * p + 1) by lia. split; [reflexivity|apply word_range].
Qed.
Lemma to_untagged_does p vs h : body_does to_untagged_body (Some p :: vs) h (Some (word (ival p))) h.
Proof.
  clear Hstack Hheap P place addr mext mskips room.
  intros rs m fl Ha Hm. pose proof (arg0 _ _ _ Ha) as E0.
  eexists _, m, _. split; [cbn [sx to_untagged_body exec read write]; reflexivity|].
  split; [|split; [rewrite !rset_other by discriminate; reflexivity|split; [rewrite !rset_other by discriminate; reflexivity|split; [exact Hm|reflexivity]]]].
  cbn [result_in]. rewrite !rset_same, E0, sar1, word_word. split; [reflexivity|apply word_range].
Qed.
Lemma type_table_does vs h table : laddr (LSym "typeInfoArray") = table -> is_addr table ->
  body_does type_table_body vs h (Some table) h.
Proof.
  clear Hstack Hheap P place addr mext mskips room.
  intros Ht Hw rs m fl Ha Hm.
  eexists _, m, _. split; [cbn [sx type_table_body exec]; reflexivity|].
  split; [|split; [rewrite !rset_other by discriminate; reflexivity|split; [rewrite !rset_other by discriminate; reflexivity|split; [exact Hm|reflexivity]]]].
  cbn [result_in]. rewrite rset_same, Ht. replace (table + 0) with table by lia. rewrite word_id by exact Hw. auto.
Qed.

(** Functions that are not in the program do what the machine says of them. *)
Definition foreign (f : string) (vs : list value) (h : memory) (v : value) (h' : memory) : Prop :=
  forall rs m, args_in vs rs -> agree heap m h -> rs rsp mod 16 = 0 -> lo + room <= rs rsp <= hi ->
    exists rs' m', mext f (rs, m) = Some (rs', m') /\ result_in v rs' /\ rs' rsp = rs rsp /\ rs' rbp = rs rbp /\
      agree heap m' h' /\ (forall a, rs rsp <= a < hi -> m' a = m a).
Lemma foreign_contract f vs h v h' n : find_fn P f = None -> mskips f = false -> foreign f vs h v h' ->
  contract P STEPS heap lo hi room f vs h v h' n (S n).
Proof.
  intros Hf Hs Ho rs m fl Hn Ha Hm Hal Hsp _. destruct (Ho rs m Ha Hm Hal Hsp) as (rs' & m' & E & R).
  exists rs', m', None. split; [|exact R]. apply steps_one. cbn [step]. rewrite Hn. cbn [aligned]. rewrite Hal.
  change (0 =? 0) with true. cbv iota. unfold call_named. rewrite Hf, E, Hs. reflexivity.
Qed.
Lemma foreign_contract_skip f vs h v h' n : find_fn P f = None -> mskips f = true -> foreign f vs h v h' ->
  place (addr (S n) + 8) = Some (S (S n)) ->
  contract P STEPS heap lo hi room f vs h v h' n (S (S n)).
Proof.
  intros Hf Hs Ho Hp rs m fl Hn Ha Hm Hal Hsp _. destruct (Ho rs m Ha Hm Hal Hsp) as (rs' & m' & E & R).
  exists rs', m', None. split; [|exact R]. apply steps_one. cbn [step]. rewrite Hn. cbn [aligned]. rewrite Hal.
  change (0 =? 0) with true. cbv iota. unfold call_named. rewrite Hf, E, Hs, Hp. reflexivity.
Qed.

(** The code at the label "ioob": it calls the function that reports the error, with
    the index and the length, on an aligned stack and without touching memory. *)
Lemma ioob_run ioob p i a rs m fl : code_at P p (ioob_code ioob) -> rs rbx = word i -> rs rax = a -> is_addr a ->
  exists q rs' fl', STEPS (MState p (rs, m, fl)) (MState q (rs', m, fl')) /\
    nth_error P q = Some (EIns call [OFn ioob]) /\ rs' rdi = wint i /\ rs' rsi = load m a /\ rs' rsp mod 16 = 0.
Proof.
  intros Hc Hb Hx Ha. change (ioob_code ioob) with (removelast (ioob_code ioob) ++ [EIns call [OFn ioob]]) in Hc.
  apply code_at_app in Hc as [C1 C2].
  set (sp := word (Z.land (rs rsp) (word (-16)))).
  set (rs' := rset (rset (rset (rset (rset rs rsp sp) rdi (word i)) rdi (w_shl (word i) 1)) rdi (wint (word i))) rsi (load m a)).
  eexists _, rs', None. split; [eapply sx_steps; [exact C1|]|].
  - unfold ioob_code. cbn [removelast sx].
    cbn [exec]. unfold arith. cbn [read]. change (imm32 (-16)) with true. change (imm32 1) with true. cbv iota.
    cbn [write no_flags exec read mderef m_deref m_indir negb andb]. unfold arith. cbn [write no_flags exec read]. change (imm32 1) with true. cbv iota. cbn [write no_flags exec read mderef m_deref m_indir negb andb].
    unfold ea. cbn [m_disp m_base m_idx].
    rewrite !rset_same. rewrite !(rset_other _ _ rax) by discriminate. rewrite !(rset_other _ _ rbx) by discriminate.
    rewrite Hb, Hx, word_word. rewrite tag_spec. replace (0 + a + 0) with a by lia. rewrite (word_id a) by exact Ha. rewrite (word_id (load m a)) by apply load_range.
    reflexivity.
  - split; [|split; [|split]].
    + apply code_at_cons in C2 as [C2 _]. exact C2.
    + unfold rs'. rewrite rset_other by discriminate. rewrite rset_same. apply wint_word.
    + unfold rs'. apply rset_same.
    + unfold rs'. rewrite !rset_other by discriminate. rewrite rset_same. unfold sp.
      replace (word (Z.land (rs rsp) (word (-16))) mod 16) with (Z.land (rs rsp) (word (-16)) mod 16) by (unfold word; lia).
      change 16 with (2 ^ 4). rewrite <- Z.land_ones by lia. rewrite <- Z.land_assoc. change (Z.land (word (-16)) (Z.ones 4)) with 0. apply Z.land_0_r.
Qed.
End Machine.

Lemma index_ok8 (heap : Z -> bool) a : ok8 heap a = true -> heap a = true.
Proof. unfold ok8. rewrite !andb_true_iff. tauto. Qed.

Lemma code_at_in P n e c : code_at P n (e :: c) -> nth_error P n = Some e.
Proof. intros H. apply code_at_cons in H. tauto. Qed.

Section Whole.
Variables (unq : list Z -> option (list Z)) (alloc ioob entry : string) (ts : list gtype) (full : list fundef).
Variables (P : list event) (sf : gst).
Hypothesis Hgen : gen_program unq alloc ioob entry ts full start = Some (P, sf).
Hypothesis Hnames : NoDup (map f_name full ++ routine_names).
Hypothesis Hmaps : NoDup (map_labels ts).
Hypothesis Hsize : Z.of_nat (List.length P) < 576460752303423488.

Lemma addr_range i : (i <= List.length P)%nat -> 8 <= code_addr i < W - 8.
Proof. unfold code_addr, code_base. lia. Qed.

Lemma whole_fn f i : nth_error P i = Some (EFn f) -> find_fn P f = Some i.
Proof.
  intros H. unfold find_fn. rewrite (find_fn_count P f 0 i); [reflexivity| |exact H].
  rewrite (ck_fn _ _ _ _ _ (chunk_program _ _ _ _ _ _ _ _ _ Hgen)).
  apply NoDup_count_occ with (decA := string_dec) (x := f) in Hnames. exact Hnames.
Qed.
Lemma whole_label l i : nth_error P i = Some (ELabel l) -> find_label P l = Some i.
Proof.
  intros H. unfold find_label. rewrite (find_label_count P l 0 i); [reflexivity| |exact H].
  eapply program_unique; eauto.
Qed.
Lemma whole_defined l : In l ((([LIoob; LNoGc] ++ table_labels ts) ++ literal_labels sf)) ->
  match l with LGen _ _ | LMap _ => False | _ => True end -> exists i, find_label P l = Some i /\ (i < List.length P)%nat.
Proof.
  intros H Hl. destruct (lcount_find P l 0) as [i Hi].
  - pose proof (ck_count _ _ _ _ _ (chunk_program _ _ _ _ _ _ _ _ _ Hgen) l) as C.
    destruct l; try (elim Hl); rewrite C; now apply acount_in.
  - exists i. split; [exact Hi|]. apply find_label_lt in Hi. lia.
Qed.
Lemma whole_lit n s : nth_error (g_lits sf) n = Some s ->
  link_label P (LLit n) + 8 = link_lit P (g_lits sf) s /\ is_addr (link_lit P (g_lits sf) s).
Proof.
  intros H. unfold link_lit.
  assert (Hd : NoDup (g_lits sf)).
  { pose proof (ck_lits _ _ _ _ _ (chunk_program _ _ _ _ _ _ _ _ _ Hgen)) as (_ & D & _). apply D. constructor. }
  rewrite (find_lit_nodup _ 0 n s Hd H). split; [reflexivity|]. cbn [plus link_label].
  destruct (whole_defined (LLit n)) as (i & Hi & Hlt).
  - apply in_or_app. right. unfold literal_labels. apply in_map, in_seq.
    assert (n < List.length (g_lits sf))%nat by (apply nth_error_Some; congruence). lia.
  - exact I.
  - rewrite Hi. pose proof (addr_range i ltac:(lia)). unfold is_addr. lia.
Qed.
Lemma whole_parts : exists c1 s1 c2 s2 c3, gen_fns alloc full start = Some (c1, s1) /\
  gen_routines ioob entry ts s1 = Some (c2, s2) /\ gen_flush unq s2 = Some (c3, sf) /\ P = c1 ++ c2 ++ c3.
Proof.
  pose proof Hgen as H. unfold gen_program in H. apply seq_inv in H as (c1 & s1 & c2 & H1 & H & E).
  apply seq_inv in H as (c3 & s3 & c4 & H3 & H & ->). exists c1, s1, c3, s3, c4. auto.
Qed.
Lemma whole_code fd : In fd full -> exists s c s' n,
  gen_fn alloc fd s = Some (c, s') /\ code_at P n c /\
  (forall k x, nth_error (g_lits s') k = Some x -> nth_error (g_lits sf) k = Some x).
Proof.
  intros Hin. destruct whole_parts as (c1 & s1 & c2 & s2 & c3 & H1 & H2 & H3 & E).
  destruct (gen_fns_in alloc full fd Hin _ _ _ H1) as (s & c & s' & n & A1 & A2 & A3).
  exists s, c, s', n. split; [exact A1|]. split.
  - rewrite E. intros i e Hi. specialize (A2 i e Hi). rewrite nth_error_app1; [exact A2|]. apply nth_error_Some. congruence.
  - intros k x Hx. apply chunk_flush in H3 as [-> _]. eapply extends_nth; [|exact Hx]. eapply extends_trans; [exact A3|].
    apply chunk_routines in H2. apply (ck_lits _ _ _ _ _ H2).
Qed.
Lemma whole_routines :
  (exists n, code_at P n (routine "readByte" read_byte_body)) /\
  (exists n, code_at P n (routine "readInt" read_int_body)) /\
  (exists n, code_at P n (routine "writeByte" write_byte_body)) /\
  (exists n, code_at P n (routine "writeInt" write_int_body)) /\
  (exists n, code_at P n (ioob_code ioob)) /\
  (exists n, code_at P n (routine "unsafe" unsafe_body)) /\
  (exists n, code_at P n (routine "toTaggedInt" to_tagged_body)) /\
  (exists n, code_at P n (routine "toUntaggedInt" to_untagged_body)) /\
  (exists n, code_at P n (routine "typeInfoTable" type_table_body)).
Proof.
  destruct whole_parts as (c1 & s1 & c2 & s2 & c3 & H1 & H2 & H3 & ->).
  apply routines_at in H2. decompose [and] H2. repeat (split; [now apply at_app, at_front|]). now apply at_app, at_front.
Qed.
Definition whole_table : Z := link_label P (LSym "typeInfoArray").
Lemma whole_table_addr : is_addr whole_table.
Proof.
  unfold whole_table. cbn [link_label]. destruct (whole_defined (LSym "typeInfoArray")) as (i & Hi & Hlt).
  - apply in_or_app. left. apply in_or_app. right. unfold table_labels. apply in_or_app. right. apply in_or_app. right. left. reflexivity.
  - exact I.
  - rewrite Hi. pose proof (addr_range i ltac:(lia)). unfold is_addr. lia.
Qed.
Lemma whole_ioob : exists p, find_label P LIoob = Some p /\ code_at P p (ioob_code ioob).
Proof.
  destruct whole_routines as (_ & _ & _ & _ & [n H] & _). exists n. split; [|exact H]. apply whole_label.
  eapply code_at_in. exact H.
Qed.

Section Runtime.
Variable mext : string -> regs * memory -> option (regs * memory).
Variable mskips : string -> bool.
Variable heap : Z -> bool.
Variables lo hi room : Z.
Hypothesis Hstack : 0 <= lo /\ hi < W.
Hypothesis Hheap : forall a, heap a = true -> is_addr a /\ (a < lo \/ hi <= a).
Hypothesis Hroom : 16 <= room.
Notation STEPS := (steps (link_label P) mext mskips code_addr code_place P).

Lemma whole_return n o : nth_error P n = Some (EIns call [o]) ->
  is_addr (code_addr (S n)) /\ code_place (code_addr (S n)) = Some (S n).
Proof.
  intros H. assert (Hn : (n < List.length P)%nat) by (apply nth_error_Some; congruence).
  pose proof (addr_range (S n) ltac:(lia)). split; [unfold is_addr; lia|apply code_place_addr].
Qed.
Lemma contract_at f vs h v h' n n' :
  (nth_error P n = Some (EIns call [OFn f]) -> contract P STEPS heap lo hi room f vs h v h' n n') ->
  contract P STEPS heap lo hi room f vs h v h' n n'.
Proof. intros H rs m fl Hn. exact (H Hn rs m fl Hn). Qed.
Lemma whole_routine f body vs h v h' n : (exists k, code_at P k (routine f body)) ->
  body_does (link_label P) heap lo hi body vs h v h' -> contract P STEPS heap lo hi room f vs h v h' n (S n).
Proof.
  intros [k Hk] Hb. apply contract_at. intros Hn. eapply routine_contract with (k := k); eauto using whole_return.
  apply whole_fn. eapply code_at_in. exact Hk.
Qed.
Lemma whole_runtime f vs h v h' n : runtime heap whole_table f vs h = Some (v, h') ->
  contract P STEPS heap lo hi room f vs h v h' n (S n).
Proof.
  destruct whole_routines as (R1 & R2 & R3 & R4 & _ & R5 & R6 & R7 & R8). unfold runtime. intros H.
  destruct (String.eqb_spec f "readByte") as [->|_].
  { destruct vs as [|[p|] [|[i|] vs]]; try discriminate. destruct (heap _) eqn:Eh; [|discriminate]. injection H as <- <-.
    eapply whole_routine; [exact R1|]. now apply read_byte_does. }
  destruct (String.eqb_spec f "readInt") as [->|_].
  { destruct vs as [|[p|] [|[i|] vs]]; try discriminate. destruct (ok8 heap _) eqn:Eh; [|discriminate]. injection H as <- <-.
    eapply whole_routine; [exact R2|]. now apply read_int_does. }
  destruct (String.eqb_spec f "writeByte") as [->|_].
  { destruct vs as [|[p|] [|[i|] [|[x|] vs]]]; try discriminate. destruct (heap _) eqn:Eh; [|discriminate]. injection H as <- <-.
    eapply whole_routine; [exact R3|]. now apply write_byte_does. }
  destruct (String.eqb_spec f "writeInt") as [->|_].
  { destruct vs as [|[p|] [|[i|] [|[x|] vs]]]; try discriminate. destruct (ok8 heap _) eqn:Eh; [|discriminate]. injection H as <- <-.
    eapply whole_routine; [exact R4|]. now apply write_int_does. }
  destruct (String.eqb_spec f "unsafe") as [->|_].
  { destruct vs as [|[p|] [|[i|] vs]]; try discriminate. injection H as <- <-. eapply whole_routine; [exact R5|]. apply unsafe_does. }
  destruct (String.eqb_spec f "toTaggedInt") as [->|_].
  { destruct vs as [|[p|] vs]; try discriminate. injection H as <- <-. eapply whole_routine; [exact R6|]. apply to_tagged_does. }
  destruct (String.eqb_spec f "toUntaggedInt") as [->|_].
  { destruct vs as [|[p|] vs]; try discriminate. injection H as <- <-. eapply whole_routine; [exact R7|]. apply to_untagged_does. }
  destruct (String.eqb_spec f "typeInfoTable") as [->|_]; [|discriminate].
  injection H as <- <-. eapply whole_routine; [exact R8|]. apply type_table_does; [reflexivity|apply whole_table_addr].
Qed.

(** A generated file, loaded, is linked.  [prog] are the functions whose code is
    followed; other functions of the file may be left abstract. *)
Lemma link_program (extern abstract : string -> list value -> memory -> option (value * memory)) (prog : list fundef) :
  incl prog full ->
  (forall f vs h v h', extern f vs h = Some (v, h') ->
     runtime heap whole_table f vs h = Some (v, h') \/
     forall n, contract P STEPS heap lo hi room f vs h v h' n (S n)) ->
  (forall f vs h v h', abstract f vs h = Some (v, h') -> forall n l, nth_error P (S n) = Some (EAddr l) ->
     contract P STEPS heap lo hi room f vs h v h' n (S (S n))) ->
  linked (link_label P) mext mskips code_addr code_place P heap (link_lit P (g_lits sf)) (link_fun P) (link_at P)
    extern abstract alloc prog (g_lits sf) lo hi room.
Proof.
  intros Hincl Hext Habs. split.
  - lia.
  - exact Hheap.
  - exact whole_lit.
  - intros f. split; [reflexivity|]. unfold link_fun. destruct (find_fn P f) as [i|] eqn:E; [|unfold is_addr; lia].
    apply find_fn_lt in E. pose proof (addr_range i ltac:(lia)). unfold is_addr. lia.
  - intros w f. unfold link_at. destruct (code_place w) as [i|]; [|discriminate]. destruct (nth_error P i) as [[]|]; try discriminate.
    destruct (Z.eqb_spec w (link_fun P f0)); [|discriminate]. now injection 1 as <-.
  - intros i l H. now apply whole_label.
  - destruct whole_ioob as (p & Hp & _). eauto.
  - intros n o Hn. destruct (whole_return n o Hn) as [A1 A2]. split; [exact A1|]. split; [exact A2|].
    intros l Hl. split; [|apply code_place_addr8].
    assert (S n < List.length P)%nat by (apply nth_error_Some; congruence).
    pose proof (addr_range (S n) ltac:(lia)). unfold is_addr. lia.
  - intros f i H. pose proof (whole_fn f i H) as E. split; [exact E|]. unfold link_fun. rewrite E. apply code_place_addr.
  - intros fd Hin. apply whole_code. auto.
  - intros f vs h v h' n H. destruct (Hext _ _ _ _ _ H) as [Hr|Hr]; [now apply whole_runtime|apply Hr].
  - intros f vs h v h' n l H Hl. eapply Habs; eauto.
Qed.
End Runtime.
End Whole.
