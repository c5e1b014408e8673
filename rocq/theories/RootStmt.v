(** GC maps: statements and functions. *)
From Coq Require Import ZArith List Bool String Lia.
From Verif Require Import X86 GenModel GenStatic GenSpec GenSlots RootSpec RootExpr.
Import ListNotations.
Open Scope Z_scope.
Ltac Zify.zify_post_hook ::= Z.div_mod_to_equations.
Local Arguments Z.mul : simpl never. Local Arguments Z.add : simpl never. Local Arguments Z.sub : simpl never.
Local Arguments Z.of_nat : simpl never.

Section Stmt.
Variable slot : nat -> Z.
Variable xr : bool.
Variable fr : Z.
Hypothesis Hslot : forall x, slot x <= 8 * fr.

(** The roots after a statement and the maps at its calls, when none leaks. *)
Definition st_roots (R : list (Z * ty)) (st : stmt) : list (Z * ty) :=
  match st with SDas x t _ => R ++ as_root (slot x) t | _ => R end.
Fixpoint st_maps (R : list (Z * ty)) (st : stmt) : list (list (Z * ty)) :=
  let fix list_maps (R : list (Z * ty)) (l : list stmt) :=
    match l with [] => [] | st :: r => st_maps R st ++ list_maps (st_roots R st) r end in
  let fix branches_maps (bs : list (option expr * list stmt)) :=
    match bs with [] => [] | (c, b) :: r => repeat R (option_calls c) ++ list_maps R b ++ branches_maps r end in
  match st with
  | SReturn e => repeat R (option_calls e)
  | SIf bs => branches_maps bs
  | SDas _ _ e => repeat R (calls e)
  | SAs l e => repeat R (calls e + calls l)
  | SWhile c b => repeat R (calls c) ++ list_maps R b
  | SBlock b => list_maps R b
  | SExpr e => repeat R (calls e)
  end.
Fixpoint list_maps (R : list (Z * ty)) (l : list stmt) : list (list (Z * ty)) :=
  match l with [] => [] | st :: r => st_maps R st ++ list_maps (st_roots R st) r end.
Fixpoint branches_maps (R : list (Z * ty)) (bs : list (option expr * list stmt)) : list (list (Z * ty)) :=
  match bs with [] => [] | (c, b) :: r => repeat R (option_calls c) ++ list_maps R b ++ branches_maps R r end.
Fixpoint list_roots (R : list (Z * ty)) (l : list stmt) : list (Z * ty) :=
  match l with [] => R | st :: r => list_roots (st_roots R st) r end.

Lemma object_pointer t : object t = is_pointer t.
Proof. unfold object, is_pointer. destruct (ty_kind t); reflexivity. Qed.
Lemma st_maps_if R bs : st_maps R (SIf bs) = branches_maps R bs.
Proof. induction bs as [|[c b] bs IH]; [reflexivity|]. cbn [branches_maps]. rewrite <- IH. reflexivity. Qed.
Lemma st_maps_while R c b : st_maps R (SWhile c b) = repeat R (calls c) ++ list_maps R b.
Proof. reflexivity. Qed.
Lemma st_maps_block R b : st_maps R (SBlock b) = list_maps R b.
Proof. reflexivity. Qed.
Lemma shallow_while c b : shallow (SWhile c b) = (blocks_first b /\ shallow_list b).
Proof. reflexivity. Qed.
Lemma shallow_block b : shallow (SBlock b) = (blocks_first b /\ shallow_list b).
Proof. reflexivity. Qed.
Fixpoint shallow_branches (bs : list (option expr * list stmt)) : Prop :=
  match bs with [] => True | (_, b) :: r => blocks_first b /\ shallow_list b /\ shallow_branches r end.
Lemma shallow_if bs : shallow (SIf bs) = shallow_branches bs.
Proof. reflexivity. Qed.

Lemma list_roots_prefix l : forall R, exists X, list_roots R l = R ++ X.
Proof.
  induction l as [|st l IH]; intros R; cbn [list_roots].
  - exists []. now rewrite app_nil_r.
  - destruct (IH (st_roots R st)) as [X ->]. destruct st; cbn [st_roots]; eauto.
    exists (as_root (slot x) t ++ X). now rewrite app_assoc.
Qed.
Lemma st_roots_low R st : low fr R -> low fr (st_roots R st).
Proof.
  intros H. destruct st; try exact H. apply Forall_app. split; [exact H|].
  unfold as_root. destruct (is_pointer t); repeat constructor. cbn [fst]. apply Hslot.
Qed.

Definition sinv (s : gst) : Prop := g_sp s = fr /\ low fr (g_roots s).
Definition stmt_tells (st : stmt) : Prop := shallow st -> forall s c s', sinv s -> gen_stmt slot xr st s = Some (c, s') ->
  tells fr (st_maps (g_roots s) st) (core s) c (core s') /\
  g_roots s' = st_roots (g_roots s) st /\
  (g_scopes s' = g_scopes s \/ (has_block st = true /\ hd_error (g_scopes s') = Some (List.length (g_roots s)))).

Lemma sinv_inv s : sinv s -> inv fr s.
Proof. intros [H1 H2]. split; [lia|]. now rewrite H1. Qed.
Lemma expr_at s e ta c s' : sinv s -> gen_expr slot e ta s = Some (c, s') ->
  tells fr (repeat (g_roots s) (calls e)) (core s) c (core s') /\ kept s s' /\ sinv s'.
Proof.
  intros Hs H. pose proof (gen_expr_eff _ _ _ _ _ _ H) as (E & _ & _).
  apply gen_expr_tells with (fr := fr) in H as [T K]; [|now apply sinv_inv].
  rewrite in_frame_low in T by apply Hs. split; [exact T|]. split; [exact K|].
  destruct K as [K _], Hs as [A B]. split; [lia|now rewrite K].
Qed.

Lemma list_tells l : Forall stmt_tells l -> shallow_list l -> forall s c s', sinv s -> gen_list slot xr l s = Some (c, s') ->
  tells fr (list_maps (g_roots s) l) (core s) c (core s') /\ g_roots s' = list_roots (g_roots s) l.
Proof.
  induction 1 as [|st l Hst _ IH]; intros Hsh s c s' Hs H; cbn [gen_list] in H.
  - ginv H. split; [apply tells_nil|reflexivity].
  - destruct Hsh as [Hsh1 Hsh2]. apply seq_inv in H as (c1 & s1 & c2 & H1 & H & ->).
    pose proof (gen_stmt_eff _ _ _ _ _ _ H1) as (E & _ & _).
    apply Hst in H1 as (T1 & R1 & _); [|exact Hsh1|exact Hs].
    apply IH in H as (T2 & R2); [|exact Hsh2|].
    + rewrite R1 in T2, R2. split; [|exact R2]. cbn [list_maps]. eapply tells_app; eassumption.
    + destruct Hs as [A B]. split; [lia|]. rewrite R1. now apply st_roots_low.
Qed.
Lemma list_scopes l : Forall stmt_tells l -> shallow_list l -> blocks_first l -> forall s c s' n, sinv s ->
  gen_list slot xr l s = Some (c, s') -> hd_error (g_scopes s) = Some n ->
  n = List.length (g_roots s) \/ forallb (fun s => negb (has_block s)) l = true ->
  hd_error (g_scopes s') = Some n.
Proof.
  induction 1 as [|st l Hst _ IH]; intros Hsh Hbf s c s' n Hs H Hn Hor; cbn [gen_list] in H.
  - ginv H. exact Hn.
  - destruct Hsh as [Hsh1 Hsh2], Hbf as [Hbf1 Hbf2]. apply seq_inv in H as (c1 & s1 & c2 & H1 & H & ->).
    pose proof (gen_stmt_eff _ _ _ _ _ _ H1) as (E & _ & _).
    apply Hst in H1 as (_ & R1 & D1); [|exact Hsh1|exact Hs].
    eapply (IH Hsh2 Hbf2) in H; [exact H| | |].
    + destruct Hs as [A B]. split; [lia|]. rewrite R1. now apply st_roots_low.
    + destruct D1 as [->|[D1 D2]]; [exact Hn|]. rewrite D2. destruct Hor as [->|Hor]; [reflexivity|].
      cbn [forallb] in Hor. rewrite D1 in Hor. discriminate.
    + rewrite R1. destruct (declares_pointer st) eqn:Ed; [right; auto|].
      assert (Er : st_roots (g_roots s) st = g_roots s).
      { destruct st; try reflexivity. cbn [declares_pointer st_roots] in *. rewrite object_pointer in Ed. unfold as_root. rewrite Ed. apply app_nil_r. }
      rewrite Er. destruct Hor as [->|Hor]; [now left|]. cbn [forallb] in Hor. apply andb_true_iff in Hor. right. apply Hor.
Qed.

Lemma block_tells b : Forall stmt_tells b -> blocks_first b -> shallow_list b -> forall s c s', sinv s ->
  gen_block slot xr b s = Some (c, s') ->
  tells fr (list_maps (g_roots s) b) (core s) c (core s') /\ g_roots s' = g_roots s /\
  hd_error (g_scopes s') = Some (List.length (g_roots s)) /\ sinv s'.
Proof.
  intros Hb Hbf Hsh s c s' Hs H. unfold gen_block in H. apply seq_inv in H as (c1 & s1 & c2 & H1 & H & ->).
  unfold open_scope in H1. injection H1 as <- <-. apply seq_inv in H as (c3 & s3 & c4 & H3 & H & ->).
  assert (Hs1 : sinv (set_scopes (cons (List.length (g_roots s))) s)) by exact Hs.
  pose proof (gen_list_eff' _ _ _ _ _ _ H3) as (E & _ & _).
  pose proof (list_scopes _ Hb Hsh Hbf _ _ _ (List.length (g_roots s)) Hs1 H3 eq_refl (or_introl eq_refl)) as Hd.
  apply (list_tells _ Hb Hsh) in H3 as (T & R); [|exact Hs1].
  unfold close_scope in H. destruct (g_scopes s3) as [|n scs] eqn:Es; [discriminate|]. injection H as <- <-.
  cbn in Hd. injection Hd as ->. cbn [app g_roots g_scopes set_roots]. rewrite app_nil_r.
  cbn [g_roots set_scopes] in R. destruct (list_roots_prefix b (g_roots s)) as [X HX]. rewrite HX in R.
  assert (Hf : firstn (List.length (g_roots s)) (g_roots s3) = g_roots s).
  { rewrite R, firstn_app, Nat.sub_diag, firstn_all. cbn. apply app_nil_r. }
  split; [exact T|]. split; [exact Hf|]. rewrite Es. split; [reflexivity|].
  destruct Hs as [A B]. split; [cbn [g_sp set_roots]; cbn [g_sp set_scopes] in E; lia|]. cbn [g_roots set_roots]. now rewrite Hf.
Qed.

Lemma branches_tells bs : Forall (fun b => Forall stmt_tells (snd b)) bs -> shallow_branches bs ->
  forall ex s c s', sinv s -> gen_branches slot xr ex bs s = Some (c, s') ->
  tells fr (branches_maps (g_roots s) bs) (core s) c (core s') /\ g_roots s' = g_roots s /\
  (g_scopes s' = g_scopes s \/ hd_error (g_scopes s') = Some (List.length (g_roots s))).
Proof.
  induction 1 as [|[o b] bs Hb _ IH]; intros Hsh ex s c s' Hs H; cbn [gen_branches] in H.
  - ginv H. split; [apply tells_nil|]. auto.
  - destruct Hsh as (Hbf & Hsh1 & Hsh2). cbn [snd] in Hb. destruct o as [e|].
    + apply seq_inv in H as (c3 & s3 & c4 & H3 & H & ->). apply seq_inv in H as (c5 & s5 & c6 & H5 & H & ->).
      apply expr_at in H3 as (T1 & [K1 _] & Hs3); [|exact Hs].
      ginv1 H5. match goal with G : gen_block _ _ _ _ = _ |- _ => rename G into G1 end. subst.
      apply (block_tells _ Hb Hbf Hsh1) in G1 as (T2 & R2 & D2 & Hs5); [|exact Hs3].
      apply IH in H as (T3 & R3 & D3); [|exact Hsh2|exact Hs5].
      cbn [g_roots set_lab] in *. rewrite R2, K1 in *.
      split; [|split; [exact R3|]].
      * cbn [branches_maps option_calls]. eapply tells_eq.
        -- eapply tells_app; [exact T1|]. eapply tells_app; [|exact T3].
           eapply tells_cons; [reflexivity|]. eapply tells_app; [apply tells_plain; reflexivity|].
           eapply tells_app; [apply tells_plain; reflexivity|]. eapply tells_app; [exact T2|].
           eapply tells_app; apply tells_plain; reflexivity.
        -- cbn [app]. now rewrite app_nil_r.
      * right. destruct D3 as [->|D3]; assumption.
    + apply seq_inv in H as (c3 & s3 & c4 & H3 & H & ->).
      apply (block_tells _ Hb Hbf Hsh1) in H3 as (T2 & R2 & D2 & Hs5); [|exact Hs].
      apply IH in H as (T3 & R3 & D3); [|exact Hsh2|exact Hs5]. rewrite R2 in *.
      split; [|split; [exact R3|]].
      * cbn [branches_maps option_calls repeat app]. eapply tells_app; eassumption.
      * right. destruct D3 as [->|D3]; assumption.
Qed.

Lemma assign_tells das l e s c s' : sinv s -> gen_assign slot das l e s = Some (c, s') ->
  tells fr (repeat (g_roots s) (calls e + calls l)) (core s) c (core s') /\
  g_roots s' = g_roots s ++ match das with Some (x, t) => as_root (slot x) t | None => [] end /\
  g_scopes s' = g_scopes s.
Proof.
  intros Hs H. unfold gen_assign in H.
  apply seq_inv in H as (c1 & s1 & c2 & H1 & H & ->). apply expr_at in H1 as (T1 & [K1 K2] & [Hs1 Hs2]); [|exact Hs].
  apply seq_inv in H as (c3 & s3 & c4 & H3 & H & ->). apply save_inv in H3 as [-> ->].
  apply seq_inv in H as (c5 & s5 & c6 & H5 & H & ->).
  apply gen_expr_tells with (fr := fr) in H5 as [T2 [K3 K4]].
  2: { split; [cbn [g_sp set_sp]; lia|]. cbn [g_sp g_roots set_sp]. eapply low_weaken; [|exact Hs2]. lia. }
  apply seq_inv in H as (c7 & s7 & c8 & H7 & H & ->). apply restore_inv in H7 as [-> ->].
  apply seq_inv in H as (c9 & s9 & c10 & H9 & H & ->). apply ins_inv in H9 as [-> ->].
  cbn [g_roots g_scopes set_sp] in *. rewrite in_frame_low in T2 by exact Hs2.
  assert (L : c10 = [] /\ core s' = core s5 /\ g_scopes s' = g_scopes s5 /\
    g_roots s' = g_roots s5 ++ match das with Some (x, t) => as_root (slot x) t | None => [] end).
  { destruct das as [[x t]|].
    - apply add_root_does in H as (-> & L1 & L2 & L3). cbn [g_roots g_scopes set_sp] in *. auto.
    - ginv H. rewrite app_nil_r. auto. }
  destruct L as (-> & L1 & L2 & L3). rewrite L3, K3, K1, L2, K4, K2 in *. split; [|auto].
  rewrite repeat_plus, L1. eapply tells_eq.
  - eapply tells_app; [exact T1|]. eapply tells_app; [apply tells_plain; reflexivity|].
    eapply tells_app; [exact T2|]. eapply tells_app; [apply tells_plain; reflexivity|].
    eapply tells_app; apply tells_plain; reflexivity.
  - cbn [app]. now rewrite !app_nil_r.
Qed.

Lemma gen_stmt_tells st : stmt_tells st.
Proof.
  induction st using stmt_ind'; intros Hsh s c0 s' Hs H0.
  - cbn [gen_stmt] in H0. unfold gen_return in H0. apply seq_inv in H0 as (c1 & s1 & c2 & H1 & H & ->).
    apply gen_exit_inv in H as [-> ->].
    assert (L : tells fr (repeat (g_roots s) (option_calls e)) (core s) c1 (core s1) /\ kept s s1).
    { destruct e as [e|].
      - apply expr_at in H1 as (T & K & _); auto.
      - ginv H1. split; [apply tells_nil|split; reflexivity]. }
    destruct L as (T & K1 & K2). split; [|auto]. cbn [st_maps]. eapply tells_eq.
    + eapply tells_app; [exact T|]. apply tells_plain. destruct xr; reflexivity.
    + apply app_nil_r.
  - rewrite gen_stmt_if in H0. apply new_label_inv in H0 as (c1 & -> & H0). apply seq_inv in H0 as (c2 & s2 & c3 & H2 & H0 & ->).
    apply emit_inv in H0 as [-> ->]. rewrite shallow_if in Hsh.
    apply branches_tells in H2 as (T & R & D); [|exact H|exact Hsh|exact Hs]. cbn [g_roots g_scopes set_lab] in *.
    rewrite st_maps_if. split; [|split; [exact R|]].
    + eapply tells_cons; [reflexivity|]. eapply tells_eq.
      * eapply tells_app; [exact T|apply tells_plain; reflexivity].
      * apply app_nil_r.
    + destruct D as [D|D]; auto.
  - cbn [gen_stmt] in H0. apply assign_tells in H0 as (T & R & D); [|exact Hs]. cbn [calls] in T. rewrite Nat.add_0_r in T. auto.
  - cbn [gen_stmt] in H0. apply assign_tells in H0 as (T & R & D); [|exact Hs]. rewrite app_nil_r in R. auto.
  - rewrite gen_stmt_while in H0. rewrite shallow_while in Hsh. destruct Hsh as [Hbf Hsh].
    ginv1 H0. subst.
    match goal with G : gen_block _ _ _ _ = _ |- _ => rename G into G1 end.
    match goal with G : gen_expr _ _ _ _ = _ |- _ => rename G into G2 end.
    apply expr_at in G2 as (T1 & [K1 K2] & Hs1); [|exact Hs].
    apply (block_tells _ H Hbf Hsh) in G1 as (T2 & R2 & D2 & Hs2); [|exact Hs1].
    cbn [g_roots g_scopes set_lab] in *. rewrite K1 in *. rewrite st_maps_while.
    split; [|split; [exact R2|right; split; [reflexivity|exact D2]]].
    do 2 (eapply tells_cons; [reflexivity|]). eapply tells_eq.
    + eapply tells_app; [apply tells_plain; reflexivity|]. eapply tells_app; [exact T1|].
      eapply tells_app; [apply tells_plain; reflexivity|]. eapply tells_app; [apply tells_plain; reflexivity|].
      eapply tells_app; [exact T2|]. eapply tells_app; apply tells_plain; reflexivity.
    + cbn [app]. now rewrite app_nil_r.
  - rewrite gen_stmt_block in H0. rewrite shallow_block in Hsh. destruct Hsh as [Hbf Hsh].
    apply (block_tells _ H Hbf Hsh) in H0 as (T & R & D & _); [|exact Hs]. rewrite st_maps_block. auto.
  - cbn [gen_stmt] in H0. apply expr_at in H0 as (T & [K1 K2] & _); [|exact Hs]. auto.
Qed.
Lemma gen_all_tell l : Forall stmt_tells l.
Proof. apply Forall_forall. intros st _. apply gen_stmt_tells. Qed.

(* ------------------------------------------------------- without conditions on blocks *)

Definition some_tells (a : mst) (c : list event) (b : mst) : Prop := exists Ms, tells fr Ms a c b.
Lemma some_app a b d c1 c2 : some_tells a c1 b -> some_tells b c2 d -> some_tells a (c1 ++ c2) d.
Proof. intros [M1 H1] [M2 H2]. exists (M1 ++ M2). eapply tells_app; eassumption. Qed.
Lemma some_plain a c : forallb plain c = true -> some_tells a c a.
Proof. exists []. now apply tells_plain. Qed.
Lemma some_cons e a c b : plain e = true -> some_tells a c b -> some_tells a (e :: c) b.
Proof. intros H [M HM]. exists M. now apply tells_cons. Qed.
Definition stmt_some (st : stmt) : Prop := forall s c s', sinv s -> gen_stmt slot xr st s = Some (c, s') ->
  some_tells (core s) c (core s') /\ sinv s'.
Lemma list_some l : Forall stmt_some l -> forall s c s', sinv s -> gen_list slot xr l s = Some (c, s') ->
  some_tells (core s) c (core s') /\ sinv s'.
Proof.
  induction 1 as [|st l Hst _ IH]; intros s c s' Hs H; cbn [gen_list] in H.
  - ginv H. split; [now apply some_plain|exact Hs].
  - apply seq_inv in H as (c1 & s1 & c2 & H1 & H & ->). apply Hst in H1 as [T1 S1]; [|exact Hs].
    apply IH in H as [T2 S2]; [|exact S1]. split; [eapply some_app; eassumption|exact S2].
Qed.
Lemma block_some l : Forall stmt_some l -> forall s c s', sinv s -> gen_block slot xr l s = Some (c, s') ->
  some_tells (core s) c (core s') /\ sinv s'.
Proof.
  intros Hl s c s' Hs H. unfold gen_block in H. apply seq_inv in H as (c1 & s1 & c2 & H1 & H & ->).
  unfold open_scope in H1. injection H1 as <- <-. apply seq_inv in H as (c3 & s3 & c4 & H3 & H & ->).
  apply (list_some _ Hl) in H3 as [T [S1 S2]]; [|exact Hs].
  unfold close_scope in H. destruct (g_scopes s3) as [|n scs]; [discriminate|]. injection H as <- <-.
  rewrite app_nil_r. split; [exact T|]. split; [exact S1|]. cbn [g_roots set_roots].
  unfold low in *. rewrite Forall_forall in *. intros r Hr. apply S2. clear - Hr. revert Hr. generalize (g_roots s3). revert n.
  induction n as [|n IH]; intros l Hr; [destruct Hr|]. destruct l as [|a l]; [destruct Hr|]. destruct Hr as [<-|Hr]; [now left|right; auto].
Qed.
Lemma expr_some s e ta c s' : sinv s -> gen_expr slot e ta s = Some (c, s') -> some_tells (core s) c (core s') /\ sinv s'.
Proof. intros Hs H. apply expr_at in H as (T & _ & S1); [|exact Hs]. split; [eexists; exact T|exact S1]. Qed.
Lemma gen_stmt_some st : stmt_some st.
Proof.
  induction st using stmt_ind'; intros s c0 s' Hs H0.
  - cbn [gen_stmt] in H0. unfold gen_return in H0. apply seq_inv in H0 as (c1 & s1 & c2 & H1 & H & ->).
    apply gen_exit_inv in H as [-> ->].
    assert (L : some_tells (core s) c1 (core s1) /\ sinv s1).
    { destruct e as [e|]; [now apply expr_some in H1|]. ginv H1. split; [now apply some_plain|exact Hs]. }
    destruct L as [T S1]. split; [|exact S1]. eapply some_app; [exact T|]. apply some_plain. destruct xr; reflexivity.
  - rewrite gen_stmt_if in H0. apply new_label_inv in H0 as (c1 & -> & H0). apply seq_inv in H0 as (c2 & s2 & c3 & H2 & H0 & ->).
    apply emit_inv in H0 as [-> ->].
    enough (L : some_tells (core s) c2 (core s2) /\ sinv s2).
    { destruct L as [L1 L2]. split; [|exact L2]. apply some_cons; [reflexivity|]. eapply some_app; [exact L1|now apply some_plain]. }
    revert H2. change (core s) with (core (set_lab S s)). assert (Hs' : sinv (set_lab S s)) by exact Hs. revert Hs'.
    generalize (set_lab S s) as s0. generalize (LGen PIfEnd (g_lab s)) as ex. intros ex. clear s Hs. revert c2 s2.
    induction H as [|[c b] bs Hb _ IH]; intros c2 s2 s Hs H2; cbn [gen_branches] in H2.
    + ginv H2. split; [now apply some_plain|exact Hs].
    + cbn [snd] in Hb. destruct c as [c|].
      * apply seq_inv in H2 as (c3 & s3 & c4 & H3 & H2 & ->). apply seq_inv in H2 as (c5 & s5 & c6 & H5 & H2 & ->).
        apply expr_some in H3 as [T1 S1]; [|exact Hs]. ginv1 H5. subst.
        match goal with G : gen_block _ _ _ _ = _ |- _ => apply (block_some _ Hb) in G as [T2 S2]; [|exact S1] end.
        apply IH in H2 as [T3 S3]; [|exact S2]. split; [|exact S3].
        eapply some_app; [exact T1|]. eapply some_app; [|exact T3]. apply some_cons; [reflexivity|].
        do 2 (apply some_cons; [reflexivity|]). eapply some_app; [exact T2|now apply some_plain].
      * apply seq_inv in H2 as (c3 & s3 & c4 & H3 & H2 & ->). apply (block_some _ Hb) in H3 as [T2 S2]; [|exact Hs].
        apply IH in H2 as [T3 S3]; [|exact S2]. split; [eapply some_app; eassumption|exact S3].
  - pose proof (gen_stmt_eff _ _ _ _ _ _ H0) as (E & _ & _).
    cbn [gen_stmt] in H0. apply assign_tells in H0 as (T & R & D); [|exact Hs]. split; [eexists; exact T|].
    destruct Hs as [A B]. split; [lia|]. rewrite R. apply (st_roots_low _ (SDas x t e) B).
  - pose proof (gen_stmt_eff _ _ _ _ _ _ H0) as (E & _ & _).
    cbn [gen_stmt] in H0. apply assign_tells in H0 as (T & R & D); [|exact Hs]. split; [eexists; exact T|].
    destruct Hs as [A B]. split; [lia|]. rewrite R, app_nil_r. exact B.
  - rewrite gen_stmt_while in H0. ginv1 H0. subst.
    match goal with G : gen_expr _ _ _ _ = _ |- _ => apply expr_some in G as [T1 S1]; [|exact Hs] end.
    match goal with G : gen_block _ _ _ _ = _ |- _ => apply (block_some _ H) in G as [T2 S2]; [|exact S1] end.
    split; [|exact S2]. do 3 (apply some_cons; [reflexivity|]). eapply some_app; [exact T1|].
    do 2 (apply some_cons; [reflexivity|]). eapply some_app; [exact T2|now apply some_plain].
  - rewrite gen_stmt_block in H0. now apply (block_some _ H) in H0.
  - cbn [gen_stmt] in H0. now apply expr_some in H0.
Qed.

(* -------------------------------------------------------------------- the ways through *)

(** The roots [R] are the pointers among the variables [A]. *)
Definition rooted (R : list (Z * ty)) (A : list (nat * ty)) : Prop :=
  forall o, (exists t, In (o, t) R) <-> exists x t, In (x, t) A /\ is_pointer t = true /\ o = slot x.

Lemma rooted_das R A x t : rooted R A -> rooted (R ++ as_root (slot x) t) ((x, t) :: A).
Proof.
  intros H o. split.
  - intros (u & Hu). apply in_app_or in Hu as [Hu|Hu].
    + destruct (proj1 (H o)) as (y & v & V1 & V2 & V3); [eauto|]. exists y, v. split; [now right|auto].
    + unfold as_root in Hu. destruct (is_pointer t) eqn:E; [|destruct Hu]. destruct Hu as [Hu|[]]. injection Hu as <- <-.
      exists x, t. split; [now left|auto].
  - intros (y & v & V1 & V2 & V3). destruct V1 as [V1|V1].
    + injection V1 as -> ->. exists v. apply in_or_app. right. unfold as_root. rewrite V2, V3. now left.
    + destruct (proj2 (H o)) as (u & Hu); [eauto|]. exists u. apply in_or_app. now left.
Qed.

Lemma st_maps_length st : forall R, List.length (st_maps R st) = stmt_calls st.
Proof.
  assert (HL : forall l, Forall (fun st => forall R, List.length (st_maps R st) = stmt_calls st) l ->
     forall R, List.length (list_maps R l) = list_calls l).
  { induction 1 as [|st0 l H _ IH]; intros R; cbn [list_maps list_calls]; [reflexivity|]. rewrite app_length, H, IH. reflexivity. }
  induction st using stmt_ind'; intros R.
  - apply repeat_length.
  - rewrite st_maps_if. cbn [stmt_calls]. induction H as [|[o b] bs Hb _ IH]; [reflexivity|].
    cbn [branches_maps]. rewrite !app_length, repeat_length, IH, (HL b Hb). rewrite Nat.add_assoc. reflexivity.
  - apply repeat_length.
  - apply repeat_length.
  - rewrite st_maps_while, app_length, repeat_length, (HL b H). reflexivity.
  - rewrite st_maps_block. apply (HL b H).
  - apply repeat_length.
Qed.
Lemma list_maps_length l : forall R, List.length (list_maps R l) = list_calls l.
Proof. induction l as [|st l IH]; intros R; cbn [list_maps list_calls]; [reflexivity|]. now rewrite app_length, st_maps_length, IH. Qed.

Scheme run_min := Minimality for run Sort Prop
  with run_list_min := Minimality for run_list Sort Prop
  with run_branches_min := Minimality for run_branches Sort Prop.
Combined Scheme run_mut from run_min, run_list_min, run_branches_min.

(** The calls [tr], of which the first is the [n]-th, have maps among [Ms]. *)
Definition traced (n : nat) (Ms : list (list (Z * ty))) (tr : list (nat * list (nat * ty))) : Prop :=
  forall k A, In (k, A) tr -> (n <= k)%nat /\ exists m, nth_error Ms (k - n) = Some m /\ rooted m A.

Lemma traced_at n k R A : rooted R A -> traced n (repeat R k) (at_calls n k A).
Proof.
  intros H i B Hi. unfold at_calls in Hi. apply in_map_iff in Hi as (j & Hj & Hin). injection Hj as -> ->.
  apply in_seq in Hin. split; [lia|]. exists R. split; [|exact H].
  rewrite nth_error_repeat by lia. reflexivity.
Qed.
Lemma traced_left n M1 M2 tr : traced n M1 tr -> traced n (M1 ++ M2) tr.
Proof.
  intros H k A Hk. apply H in Hk as (H1 & m & H2 & H3). split; [exact H1|]. exists m. split; [|exact H3].
  rewrite nth_error_app1; [exact H2|]. apply nth_error_Some. now rewrite H2.
Qed.
Lemma traced_right n n' M1 M2 tr : traced n' M2 tr -> n' = (n + List.length M1)%nat -> traced n (M1 ++ M2) tr.
Proof.
  intros H -> k A Hk. apply H in Hk as (H1 & m & H2 & H3). split; [lia|]. exists m. split; [|exact H3].
  rewrite nth_error_app2 by lia. rewrite <- H2. f_equal. lia.
Qed.
Lemma traced_app n Ms tr1 tr2 : traced n Ms tr1 -> traced n Ms tr2 -> traced n Ms (tr1 ++ tr2).
Proof. intros H1 H2 k A Hk. apply in_app_or in Hk as [Hk|Hk]; auto. Qed.
Lemma traced_nil n Ms : traced n Ms [].
Proof. intros k A []. Qed.

Fixpoint declared_branches (D : list nat) (bs : list (option expr * list stmt)) : Prop :=
  match bs with [] => True | (_, b) :: r => declared_list D b /\ declared_branches D r end.

Lemma declared_if D bs : declared_first D (SIf bs) = declared_branches D bs.
Proof. induction bs as [|[c b] bs IH]; [reflexivity|]. cbn [declared_branches]. rewrite <- IH. reflexivity. Qed.

Lemma runs_traced :
  (forall n A st tr r, run n A st tr r -> forall R, rooted R A -> declared_first (map fst A) st ->
     traced n (st_maps R st) tr /\
     (forall A', r = Some A' -> rooted (st_roots R st) A' /\ map fst A' = declares (map fst A) st)) /\
  (forall n A l tr r, run_list n A l tr r -> forall R, rooted R A -> declared_list (map fst A) l ->
     traced n (list_maps R l) tr) /\
  (forall n A bs tr r, run_branches n A bs tr r -> forall R, rooted R A -> declared_branches (map fst A) bs ->
     traced n (branches_maps R bs) tr /\ (forall A', r = Some A' -> A' = A)).
Proof.
  apply run_mut.
  - intros n A e R HR HD. split; [now apply traced_at|discriminate].
  - intros n A x t e R HR HD. split; [now apply traced_at|]. intros A' E. injection E as <-.
    split; [now apply rooted_das|reflexivity].
  - intros n A l e R HR HD. split; [now apply traced_at|]. intros A' E. injection E as <-.
    assert (EA : (match l with EVar t x => assigned x t A | _ => A end) = A).
    { destruct l; try reflexivity. cbn in HD. unfold assigned.
      destruct (existsb (Nat.eqb x) (map fst A)) eqn:E; [reflexivity|]. exfalso.
      assert (E' : existsb (Nat.eqb x) (map fst A) = true).
      { apply existsb_exists. exists x. split; [exact HD|apply Nat.eqb_refl]. }
      congruence. }
    rewrite EA. split; [exact HR|reflexivity].
  - intros n A e R HR HD. split; [now apply traced_at|]. intros A' E. injection E as <-. auto.
  - intros n A b tr r _ IH R HR HD. rewrite st_maps_block. split; [now apply IH|].
    intros A' E. destruct r; [|discriminate]. injection E as <-. auto.
  - intros n A c b R HR HD. rewrite st_maps_while. split; [apply traced_left; now apply traced_at|].
    intros A' E. injection E as <-. auto.
  - intros n A c b tr _ IH R HR HD. rewrite st_maps_while. split; [|discriminate]. apply traced_app.
    + apply traced_left. now apply traced_at.
    + eapply traced_right; [now apply IH|]. now rewrite repeat_length.
  - intros n A c b tr A' tr' r _ IH _ IH' R HR HD. destruct (IH' R HR HD) as [T' D']. split; [|exact D'].
    apply traced_app; [|apply traced_app]; [| |exact T']; rewrite st_maps_while.
    + apply traced_left. now apply traced_at.
    + eapply traced_right; [now apply IH|]. now rewrite repeat_length.
  - intros n A bs tr r _ IH R HR HD. rewrite st_maps_if. rewrite declared_if in HD. destruct (IH R HR HD) as [T D]. split; [exact T|].
    intros A' E. apply D in E as ->. auto.
  - intros n A R HR HD. apply traced_nil.
  - intros n A st l tr _ IH R HR [HD1 HD2]. cbn [list_maps]. apply traced_left. now apply (IH R HR HD1).
  - intros n A st l tr A' tr' r _ IH _ IH' R HR [HD1 HD2]. cbn [list_maps].
    destruct (IH R HR HD1) as [T D]. destruct (D A' eq_refl) as [D1 D2]. apply traced_app; [now apply traced_left|].
    eapply traced_right; [apply IH'; [exact D1|now rewrite D2]|]. now rewrite st_maps_length.
  - intros n A R HR HD. split; [apply traced_nil|]. intros A' E. now injection E as <-.
  - intros n A c b bs tr r _ IH R HR [HD1 HD2]. cbn [branches_maps option_calls]. split.
    + apply traced_app; [apply traced_left; now apply traced_at|].
      eapply traced_right; [apply traced_left; now apply IH|]. now rewrite repeat_length.
    + intros A' E. destruct r; [|discriminate]. now injection E as <-.
  - intros n A c b bs tr r _ IH R HR [HD1 HD2]. cbn [branches_maps option_calls]. destruct (IH R HR HD2) as [T D].
    split; [|exact D]. apply traced_app; [apply traced_left; now apply traced_at|].
    eapply (traced_right _ (n + calls c)); [eapply traced_right; [exact T|]|].
    + now rewrite list_maps_length.
    + now rewrite repeat_length.
  - intros n A b bs tr r _ IH R HR [HD1 HD2]. cbn [branches_maps option_calls repeat app]. split.
    + apply traced_left. now apply IH.
    + intros A' E. destruct r; [|discriminate]. now injection E as <-.
Qed.
End Stmt.
