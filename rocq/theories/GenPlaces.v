(** Assignments to variables, elements and calls, in loaded programs. *)
From Coq Require Import ZArith List Bool String Lia.
From Verif Require Import Ints X86 GenModel GenSpec GenMem GenStatic GenSlots GenExec GenCorrect GenWorld GenProps GenAssign.
Import ListNotations.
Open Scope Z_scope.

Section World.
Variable w : world.
Hypothesis Hw : loaded w.
Let LK := proj1 Hw.
Let HF0 := proj1 (proj2 Hw).
Let HF := proj2 (proj2 Hw).

Lemma stored_word m' h p v : agree (w_heap w) m' (store h p v) -> ok8 (w_heap w) p = true -> is_addr v ->
  load m' p = v /\ (forall a, w_heap w a = true -> a < p \/ p + 8 <= a -> m' a = h a).
Proof.
  intros Hag Hok Hv. split.
  - rewrite (agree_load (w_heap w) _ _ _ Hag Hok), load_store_same. now apply word_id.
  - intros a Ha Ho. rewrite (Hag a Ha). unfold store. destruct (Z.leb_spec p a), (Z.ltb_spec a (p + 8)); try reflexivity. lia.
Qed.

Lemma var_write N d slot ext T B r h s c s' n q rs m fl t x e v h1 :
  gen_stmt slot ext (SAs (EVar t x) e) s = Some (c, s') -> code_at (w_code w) n c -> lits_in w s' ->
  safe 0 e = true -> regs_in_use s = 0%nat -> g_sp s = T -> (forall y, In y (x :: expr_vars e) -> slot y <> 0) ->
  inside w slot T B T [] r h rs m -> stack_left w d (Z.max (pushes e) 1) rs ->
  w_place w (if ext then load m (B + 8) else word (load m (B + 8) + 8)) = Some q ->
  ev w N d r h e = Val (Some v, h1) ->
  exists rs' m' fl', runs w (MState n (rs, m, fl)) (MState (n + List.length c) (rs', m', fl')) /\ stack_kept w B m m' /\
    inside w slot T B T [] (env_set r x v) h1 rs' m' /\ load m' (B - slot x) = v /\
    (forall y u, y <> x -> r y = Some u -> load m' (B - slot y) = u) /\
    (forall a, w_heap w a = true -> m' a = h1 a).
Proof.
  intros Hg Hc Hl Hs Hu Hsp Hv Hi Hst Hq He.
  pose proof (stmt_code w Hw (S N) d slot ext T B r h s c s' n q rs m fl (SAs (EVar t x) e) Hg Hc Hl Hs Hu Hsp Hv Hi Hst Hq) as H.
  change (exec_stmt (w_heap w) (w_lit w) (w_fun_addr w) (w_fun_at w) (w_extern w) (w_abstract w) (w_alloc w) (w_prog w) (S N) d r h (SAs (EVar t x) e))
    with (need (ev w N d r h e) (fun v h => Val (ONormal, env_set r x v, h))) in H.
  rewrite He in H. unfold need in H. cbn [bind] in H. destruct H as (st' & S1 & rs' & m' & fl' & -> & R1 & R2).
  exists rs', m', fl'. split; [exact S1|]. split; [exact R1|]. split; [exact R2|].
  assert (V : forall y u, env_set r x v y = Some u -> load m' (B - slot y) = u) by (intros y u E; apply (iv_env _ _ _ _ _ _ _ _ _ _ _ _ R2 y u E)).
  split; [apply V; unfold env_set; now rewrite Nat.eqb_refl|]. split.
  - intros y u Hn E. apply V. unfold env_set. destruct (Nat.eqb_spec x y) as [->|]; [congruence|exact E].
  - exact (iv_heap _ _ _ _ _ _ _ _ _ _ _ _ R2).
Qed.

Lemma elem_write N d slot ext T B r h s c s' n q rs m fl t l i e v h1 p h2 iw h3 :
  gen_stmt slot ext (SAs (EIndex t l i) e) s = Some (c, s') -> code_at (w_code w) n c -> lits_in w s' ->
  safe_stmt (SAs (EIndex t l i) e) = true -> regs_in_use s = 0%nat -> g_sp s = T ->
  (forall x, In x (stmt_vars (SAs (EIndex t l i) e)) -> slot x <> 0) ->
  inside w slot T B T [] r h rs m -> stack_left w d (pushes_stmt (SAs (EIndex t l i) e)) rs ->
  w_place w (if ext then load m (B + 8) else word (load m (B + 8) + 8)) = Some q ->
  ev w (S N) d r h e = Val (Some v, h1) -> ev w N d r h1 l = Val (Some p, h2) -> ev w N d r h2 i = Val (Some iw, h3) -> is_addr v ->
  ok8 (w_heap w) p = true -> 0 <= ival iw < ival (load h3 p) -> ok8 (w_heap w) (elem p (ival iw)) = true ->
  exists rs' m' fl', runs w (MState n (rs, m, fl)) (MState (n + List.length c) (rs', m', fl')) /\ stack_kept w B m m' /\
    inside w slot T B T [] r (store h3 (elem p (ival iw)) v) rs' m' /\ load m' (elem p (ival iw)) = v /\
    (forall a, w_heap w a = true -> a < elem p (ival iw) \/ elem p (ival iw) + 8 <= a -> m' a = h3 a).
Proof.
  intros Hg Hc Hl Hs Hu Hsp Hv Hi Hst Hq He Ha Hx Hva Hok Hr Hel.
  pose proof (stmt_code w Hw (S (S N)) d slot ext T B r h s c s' n q rs m fl _ Hg Hc Hl Hs Hu Hsp Hv Hi Hst Hq) as H.
  change (exec_stmt (w_heap w) (w_lit w) (w_fun_addr w) (w_fun_at w) (w_extern w) (w_abstract w) (w_alloc w) (w_prog w) (S (S N)) d r h (SAs (EIndex t l i) e))
    with (need (ev w (S N) d r h e) (fun v h => bind (eval_addr (w_heap w) (w_lit w) (w_fun_addr w) (w_fun_at w) (w_extern w) (w_abstract w) (w_alloc w) (w_prog w) (S N) d r h (EIndex t l i))
      (fun '(a, h) => if ok8 (w_heap w) a then Val (ONormal, r, store h a v) else Stuck))) in H.
  rewrite He in H. unfold need in H. cbn [bind] in H. rewrite (index_eval w _ _ _ _ _ _ _ _ _ _ _ Ha Hx Hok ltac:(lia)) in H.
  assert (E : (0 <=? ival iw) && (ival iw <? ival (load h3 p)) = true) by (apply andb_true_intro; split; [apply Z.leb_le|apply Z.ltb_lt]; lia).
  rewrite E in H. cbn [bind] in H. rewrite Hel in H. destruct H as (st' & S1 & rs' & m' & fl' & -> & R1 & R2).
  exists rs', m', fl'. split; [exact S1|]. split; [exact R1|]. split; [exact R2|].
  exact (stored_word _ _ _ _ (iv_heap _ _ _ _ _ _ _ _ _ _ _ _ R2) Hel Hva).
Qed.

Lemma call_write N d slot ext T B r h s c s' n rs m fl t fi f args e v h1 p h2 :
  gen_stmt slot ext (SAs (ECall t fi f args) e) s = Some (c, s') -> code_at (w_code w) n c -> lits_in w s' ->
  safe 0 e = true -> safe 0 (ECall t fi f args) = true -> regs_in_use s = 0%nat -> g_sp s = T ->
  inside w slot T B T [] r h rs m -> stack_left w d (Z.max (pushes e) (1 + pushes (ECall t fi f args))) rs ->
  ev w N d r h e = Val (Some v, h1) -> ev w N d r h1 (ECall t fi f args) = Val (Some p, h2) -> is_addr v -> ok8 (w_heap w) p = true ->
  exists rs' m' fl', runs w (MState n (rs, m, fl)) (MState (n + List.length c) (rs', m', fl')) /\ stack_kept w B m m' /\
    inside w slot T B T [] r (store h2 p v) rs' m' /\ load m' p = v /\
    (forall a, w_heap w a = true -> a < p \/ p + 8 <= a -> m' a = h2 a).
Proof.
  intros Hg Hc Hl Hse Hsl Hu Hsp Hi Hst He Hp Hva Hok.
  assert (Hu' : in_use_types s = []) by (unfold regs_in_use in Hu; unfold in_use_types; destruct (g_reg s) as [|[] ?]; cbn in *; congruence).
  pose proof (S_assign_call _ _ _ _ _ _ _ _ _ _ _ _ _ _ _ _ _ _ _ LK HF0 HF N d slot T B r h s c s' n 0%nat rs m fl (ECall t fi f args) e eq_refl Hg Hc Hl Hse Hsl Hu' Hsp Hi Hst) as H.
  unfold ev in He, Hp. rewrite He in H. unfold need in H. cbn [bind] in H. rewrite Hp in H. cbn [bind] in H. rewrite Hok in H.
  destruct H as (st' & S1 & rs' & m' & fl' & -> & R1 & R2).
  exists rs', m', fl'. split; [exact S1|]. split; [exact R1|]. split; [exact R2|].
  exact (stored_word _ _ _ _ (iv_heap _ _ _ _ _ _ _ _ _ _ _ _ R2) Hok Hva).
Qed.
End World.
