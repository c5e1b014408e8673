(** Missing returns: the check of ast.go:69-128 is sound. *)
From Coq Require Import ZArith List Bool String Lia.
From Verif Require Import Ints X86 GenModel GenSpec GenFuel LowerModel LowerSpec LowerFin.
Import ListNotations.
Open Scope Z_scope.

(** Induction over statements with statements inside. *)
Section XInd.
Variable P : xstmt -> Prop.
Hypothesis H1 : forall e, P (XReturn e).
Hypothesis H2 : forall bs, Forall (fun b => Forall P (snd b)) bs -> P (XIf bs).
Hypothesis H3 : forall x t e, P (XDas x t e).
Hypothesis H4 : forall l e, P (XAs l e).
Hypothesis H5 : forall c b, Forall P b -> P (XWhile c b).
Hypothesis H6 : forall e, P (XExpr e).
Hypothesis H7 : forall x t a b z body, Forall P body -> P (XRange x t a b z body).
Hypothesis H8 : forall x t a body, Forall P body -> P (XArray x t a body).
Hypothesis H9 : forall e cs, Forall (fun c => Forall P (snd c)) cs -> P (XMatch e cs).
Fixpoint xstmt_ind' (s : xstmt) : P s :=
  let fix all (l : list xstmt) : Forall P l := match l with [] => Forall_nil _ | a :: r => Forall_cons _ (xstmt_ind' a) (all r) end in
  match s with
  | XReturn e => H1 e
  | XIf bs => H2 bs ((fix chain bs : Forall (fun b => Forall P (snd b)) bs :=
      match bs with [] => Forall_nil _ | b :: r => Forall_cons b (all (snd b)) (chain r) end) bs)
  | XDas x t e => H3 x t e
  | XAs l e => H4 l e
  | XWhile c b => H5 c b (all b)
  | XExpr e => H6 e
  | XRange x t a b z body => H7 x t a b z body (all body)
  | XArray x t a body => H8 x t a body (all body)
  | XMatch e cs => H9 e cs ((fix every cs : Forall (fun c => Forall P (snd c)) cs :=
      match cs with [] => Forall_nil _ | c :: r => Forall_cons c (all (snd c)) (every r) end) cs)
  end.
End XInd.

(** The helper functions of is_terminating. *)
Fixpoint chain_terminates (bs : list (option expr * list xstmt)) : bool :=
  match bs with
  | [] => false
  | [(None, b)] => last_terminates b
  | (_, b) :: r => if last_terminates b then chain_terminates r else false
  end.
Fixpoint cases_terminate (cs : list (Z * list (nat * ty) * list xstmt)) : bool :=
  match cs with [] => true | (_, _, b) :: r => if last_terminates b then cases_terminate r else false end.
Lemma terminating_if bs : is_terminating (XIf bs) = chain_terminates bs.
Proof. reflexivity. Qed.
Lemma terminating_match e cs : is_terminating (XMatch e cs) = match cs with [] => false | _ => cases_terminate cs end.
Proof. reflexivity. Qed.

(** A body whose last statement has a property. *)
Lemma last_ends (P : xstmt -> Prop) l : Forall (fun s => is_terminating s = true -> P s) l -> last_terminates l = true ->
  exists l1 s, l = (l1 ++ [s])%list /\ is_terminating s = true /\ P s.
Proof.
  induction l as [|s l IH]; [discriminate|]. intros F T. inversion F as [|? ? Fs Fl]; subst.
  destruct l as [|s' l]; [exists [], s; auto|]. destruct (IH Fl T) as (l1 & s1 & E & T1 & P1).
  exists (s :: l1), s1. rewrite E. auto.
Qed.

Scheme goes_ind2 := Induction for goes Sort Prop with goes_list_ind2 := Induction for goes_list Sort Prop.

Lemma goes_list_end l1 s x : goes_list (l1 ++ [s]) x -> (goes s x \/ x = Returns).
Proof.
  induction l1 as [|a l1 IH]; cbn [app]; intros G.
  - inversion G as [|? ? G1|? ? ? G1 G2]; subst; auto. inversion G2; subst; auto.
  - inversion G as [|? ? G1|? ? ? G1 G2]; subst; auto.
Qed.

Lemma terminating_goes : forall s, is_terminating s = true -> forall x, goes s x -> x = Returns.
Proof.
  induction s using xstmt_ind'; intros T y G; try discriminate T.
  - inversion G; reflexivity.
  - rewrite terminating_if in T. inversion G as [|? c b ? I G1|? N| | | | | | | | | |]; subst.
    + clear G. induction bs as [|[c0 b0] bs IH]; [destruct I|].
      inversion H as [|? ? Hb Hr]; subst. cbn [snd] in Hb.
      assert (Lb : last_terminates b0 = true /\ (chain_terminates bs = true \/ bs = [])).
      { cbn [chain_terminates] in T. destruct c0; [|destruct bs as [|q bs]]; [| auto |]; destruct (last_terminates b0); auto; discriminate. }
      destruct I as [I|I].
      * inversion I; subst. destruct (last_ends _ _ Hb (proj1 Lb)) as (l1 & s & E & _ & Ps).
        rewrite E in G1. apply goes_list_end in G1 as [G1|G1]; [apply Ps, G1|exact G1].
      * destruct Lb as [_ [Lc|Lc]]; [apply IH; assumption|subst; destruct I].
    + exfalso. clear G H. induction bs as [|[c0 b0] bs IH]; [discriminate|]. cbn [chain_terminates] in T.
      destruct c0; [|destruct bs; [apply (N b0); left; reflexivity|apply (N b0); left; reflexivity]].
      destruct (last_terminates b0); [|discriminate]. apply IH; [exact T|]. intros b I. apply (N b). right. exact I.
  - rewrite terminating_match in T. destruct cs as [|q cs]; [discriminate|]. revert G T H. generalize (q :: cs). clear q cs. intros cs G T H.
    inversion G as [| | | | | | | | | | | |? ? tag vars b ? I G1]; subst. clear G.
    induction cs as [|[[tag0 vars0] b0] cs IH]; [destruct I|]. inversion H as [|? ? Hb Hr]; subst. cbn [snd] in Hb.
    cbn [cases_terminate] in T. destruct (last_terminates b0) eqn:Lb; [|discriminate].
    destruct I as [I|I]; [|apply IH; assumption].
    inversion I; subst. destruct (last_ends _ _ Hb Lb) as (l1 & s & E & _ & Ps).
    rewrite E in G1. apply goes_list_end in G1 as [G1|G1]; [apply Ps, G1|exact G1].
Qed.

Lemma checked_goes l x : last_terminates l = true -> goes_list l x -> x = Returns.
Proof.
  intros T G. assert (F : Forall (fun s => is_terminating s = true -> forall x, goes s x -> x = Returns) l).
  { apply Forall_forall. intros s _. apply terminating_goes. }
  destruct (last_ends _ _ F T) as (l1 & s & -> & _ & Ps). apply goes_list_end in G as [G|G]; auto.
Qed.

(* ------------------------------------------------------------------------ with runs *)

Section Run.
Variable heap : Z -> bool.
Variable lit : list Z -> Z.
Variable fun_addr : string -> Z.
Variable fun_at : Z -> option string.
Variable extern abstract : string -> list (option Z) -> memory -> option (option Z * memory).
Variable alloc : string.
Variable prog : list fundef.
Variable K : consts.
Notation EVAL := (eval heap lit fun_addr fun_at extern abstract alloc prog).
Notation EVAL_ADDR := (eval_addr heap lit fun_addr fun_at extern abstract alloc prog).
Notation EXEC := (exec_stmt heap lit fun_addr fun_at extern abstract alloc prog).
Notation EXEC_LIST := (exec_list heap lit fun_addr fun_at extern abstract alloc prog).
Notation EXEC_IF := (exec_if heap lit fun_addr fun_at extern abstract alloc prog).
Notation finE r h e := (fin (fun n d => EVAL n d r h e)).
Notation finS r h s := (fin (fun n d => EXEC n d r h s)).
Notation finL r h l := (fin (fun n d => EXEC_LIST n d r h l)).
Notation finI r h l := (fin (fun n d => EXEC_IF n d r h l)).
Local Notation finL_app := (finL_app heap lit fun_addr fun_at extern abstract alloc prog).
Local Notation finL_one := (finL_one heap lit fun_addr fun_at extern abstract alloc prog).
Local Notation finL_cons := (finL_cons heap lit fun_addr fun_at extern abstract alloc prog).
Local Notation finI_cons := (finI_cons heap lit fun_addr fun_at extern abstract alloc prog).
Local Notation finI_nil := (finI_nil heap lit fun_addr fun_at extern abstract alloc prog).
Local Notation finS_if := (finS_if heap lit fun_addr fun_at extern abstract alloc prog).
Local Notation finS_block := (finS_block heap lit fun_addr fun_at extern abstract alloc prog).
Local Notation finS_das := (finS_das heap lit fun_addr fun_at extern abstract alloc prog).

(** The lowered statement never ends normally. *)
Definition never_ends (s : stmt) : Prop := forall r h r1 h1, ~ finS r h s (Val (ONormal, r1, h1)).
Definition list_never_ends (l : list stmt) : Prop := forall r h r1 h1, ~ finL r h l (Val (ONormal, r1, h1)).

Lemma wants_normal {A} r h e (P : Z -> memory -> res A -> Prop) a : wants heap lit fun_addr fun_at extern abstract alloc prog r h e P (Val a) -> exists v h1, P v h1 (Val a).
Proof. intros [[v [h1 [_ F]]]|[[h1 [_ F]]|[E [_ [_ F]]]]]; [eauto|discriminate|destruct E; discriminate]. Qed.

Lemma list_end_never l1 s : never_ends s -> list_never_ends (l1 ++ [s]).
Proof.
  intros N r h r1 h1 F. apply finL_app in F as [R1 [F1 F2]].
  destruct R1 as [[[[|v] r2] h2]|i w h2| | |]; cbn in F2; try discriminate; try (apply proj2 in F2; discriminate).
  apply finL_one in F2. exact (N _ _ _ _ F2).
Qed.
Lemma list_never_app l1 l2 : list_never_ends l2 -> list_never_ends (l1 ++ l2).
Proof.
  intros N r h r1 h1 F. apply finL_app in F as [R1 [F1 F2]].
  destruct R1 as [[[[|v] r2] h2]|i w h2| | |]; cbn in F2; try discriminate; try (apply proj2 in F2; discriminate).
  exact (N _ _ _ _ F2).
Qed.

Lemma lower_list_app els l1 : forall k l2 p k', lower_list K els k (l1 ++ l2) = Some (p, k') ->
  exists p1 k1 p2, lower_list K els k l1 = Some (p1, k1) /\ lower_list K els k1 l2 = Some (p2, k') /\ p = (p1 ++ p2)%list.
Proof.
  induction l1 as [|s l1 IH]; intros k l2 p k' E; cbn [app lower_list] in E |- *.
  - exists [], k, p. auto.
  - destruct (lower_with K els k s) as [[s' k1]|]; [|discriminate].
    destruct (lower_list K els k1 (l1 ++ l2)) as [[r' k2]|] eqn:E1; [|discriminate]. inversion E; subst.
    destruct (IH _ _ _ _ E1) as (p1 & k3 & p2 & A & B & ->). exists (s' :: p1), k3, p2. rewrite A. auto.
Qed.

Definition never (s : xstmt) : Prop := is_terminating s = true -> forall k s' k', lower_with K (no_case K) k s = Some (s', k') -> never_ends s'.

Lemma last_never l : Forall never l -> last_terminates l = true -> forall k p k', lower_list K (no_case K) k l = Some (p, k') -> list_never_ends p.
Proof.
  intros F T k p k' E. destruct (last_ends (fun s => forall k s' k', lower_with K (no_case K) k s = Some (s', k') -> never_ends s') _ F T) as (l1 & s & -> & _ & Ps).
  apply lower_list_app in E as (p1 & k1 & p2 & _ & E2 & ->). cbn [lower_list] in E2.
  destruct (lower_with K (no_case K) k1 s) as [[s' k2]|] eqn:E3; [|discriminate]. inversion E2; subst.
  apply list_end_never. eapply Ps, E3.
Qed.

Lemma trap_stuck r h R : finL r h [trap K] R -> R = Stuck.
Proof.
  intros F. apply finL_one in F as [N [n [d E]]]. destruct n as [|[|n]]; cbn in E; try congruence.
Qed.

Lemma finI_else r h b R : finI r h [(None, b)] R <-> finL r h b R.
Proof. apply fin_step; reflexivity. Qed.

Lemma terminating_never : forall s, never s.
Proof.
  induction s using xstmt_ind'; intros T k s' k' L; try discriminate T.
  - cbn in L. inversion L; subst. intros r h r1 h1 [N [n [d E]]]. destruct n as [|n]; [discriminate|].
    rewrite exec_stmt_step in E. destruct e as [e|]; [|discriminate].
    destruct (EVAL n d r h e) as [[v h2]| | | |]; discriminate.
  - rewrite terminating_if in T. cbn [lower_with] in L. fold (lower_list K (no_case K)) in L. fold (lower_chain K (no_case K)) in L.
    destruct (lower_chain K (no_case K) k bs) as [[bs' k1]|] eqn:C; [|discriminate]. inversion L; subst. clear L.
    intros r h r1 h1 F. apply finS_if in F. revert bs' k k' C r h F.
    induction bs as [|[c b] bs IH]; [discriminate|]. intros bs' k k' C r h F.
    inversion H as [|? ? Hb Hr]; subst. cbn [snd] in Hb.
    cbn [lower_chain] in C. destruct (lower_list K (no_case K) k b) as [[b' k1]|] eqn:Eb; [|discriminate].
    destruct (lower_chain K (no_case K) k1 bs) as [[r' k2]|] eqn:Er; [|discriminate]. inversion C; subst.
    assert (Lb : last_terminates b = true).
    { cbn [chain_terminates] in T. destruct c; [|destruct bs]; destruct (last_terminates b); auto; discriminate. }
    assert (Nb := last_never _ Hb Lb _ _ _ Eb).
    destruct c as [c|].
    + apply finI_cons in F. apply wants_normal in F as [w [h2 F]].
      destruct (as_bool w) as [[|]|]; [exact (Nb _ _ _ _ F)| |discriminate].
      cbn [chain_terminates] in T. rewrite Lb in T. eapply IH; eassumption.
    + destruct r' as [|q r']; [apply finI_else in F; exact (Nb _ _ _ _ F)|].
      destruct F as [_ [n [d E]]]. destruct n; discriminate.
  - rewrite terminating_match in T. destruct cs as [|q cs]; [discriminate|].
    assert (NE : q :: cs <> []) by discriminate. revert NE T H L. generalize (q :: cs). clear q cs. intros cs NE T H L.
    cbn [lower_with] in L. fold (lower_list K (no_case K)) in L. fold (lower_cases K (no_case K)) in L.
    destruct (lower_cases K (no_case K) (S k) cs) as [[cs' k1]|] eqn:C; [|discriminate].
    unfold lower_match in L. destruct (case_branches K k (typ e) cs') as [bs|] eqn:B; [|discriminate].
    assert (G : forall r h r1 h1, ~ finI r h (bs ++ no_case K) (Val (ONormal, r1, h1))).
    { clear L NE. revert cs' bs C B. generalize (S k). generalize k1. induction cs as [|[[tag vars] b] cs IH]; intros k1' k2 cs' bs C B r h r1 h1 F.
      - cbn in C. inversion C; subst. cbn in B. inversion B; subst. cbn [app] in F. apply finI_else in F. apply trap_stuck in F. discriminate.
      - inversion H as [|? ? Hb Hr]; subst. cbn [snd] in Hb. cbn [lower_cases] in C.
        destruct (lower_list K (no_case K) k2 b) as [[b' k3]|] eqn:Eb; [|discriminate].
        destruct (lower_cases K (no_case K) k3 cs) as [[cs1 k4]|] eqn:Ec; [|discriminate]. inversion C; subst.
        cbn [case_branches] in B. destruct (case_vars K k (typ e) 0 vars) as [vs|]; [|discriminate].
        destruct (case_branches K k (typ e) cs1) as [bs1|] eqn:Eb1; [|discriminate]. inversion B; subst.
        cbn [cases_terminate] in T. destruct (last_terminates b) eqn:Lb; [|discriminate].
        cbn [app] in F. apply finI_cons in F. apply wants_normal in F as [w [h2 F]].
        destruct (as_bool w) as [[|]|]; [|eapply IH; eassumption|discriminate].
        exact (list_never_app _ _ (last_never _ Hb Lb _ _ _ Eb) _ _ _ _ F). }
    intros r h r1 h1 F.
    destruct bs as [|q bs].
    + exfalso. destruct cs as [|[[tag vars] b] cs]; [congruence|]. cbn [lower_cases] in C.
      destruct (lower_list K (no_case K) (S k) b) as [[b' k3]|]; [|discriminate].
      destruct (lower_cases K (no_case K) k3 cs) as [[cs1 k4]|]; [|discriminate]. inversion C; subst. cbn [case_branches] in B.
      destruct (case_vars K k (typ e) 0 vars); [|discriminate]. destruct (case_branches K k (typ e) cs1); discriminate.
    + inversion L; subst. clear L. apply finS_block in F.
      refine (list_end_never [SDas k (typ e) e] (SIf (q :: bs ++ no_case K)) _ _ _ _ _ F).
      intros r2 h2 r3 h3 F1. apply finS_if in F1. exact (G _ _ _ _ F1).
Qed.

(* ------------------------------------------------- with and without the extra branch *)

(** Statements that differ in extra branches that trap. *)
Inductive tr : stmt -> stmt -> Prop :=
| tr_refl s : tr s s
| tr_if bs bs' : trb bs bs' -> tr (SIf bs) (SIf bs')
| tr_while c b b' : trl b b' -> tr (SWhile c b) (SWhile c b')
| tr_block b b' : trl b b' -> tr (SBlock b) (SBlock b')
with trl : list stmt -> list stmt -> Prop :=
| trl_nil : trl [] []
| trl_cons s s' l l' : tr s s' -> trl l l' -> trl (s :: l) (s' :: l')
with trb : list (option expr * list stmt) -> list (option expr * list stmt) -> Prop :=
| trb_nil : trb [] []
| trb_trap : trb [] (no_case K)
| trb_cons c b b' bs bs' : trl b b' -> trb bs bs' -> trb ((c, b) :: bs) ((c, b') :: bs').

Definition leqs {A} (a b : res A) : Prop := a = NoFuel \/ b = Stuck \/ b = a.
Lemma leqs_refl {A} (a : res A) : leqs a a.
Proof. right; right; reflexivity. Qed.
Lemma leqs_leq {A} (a b : res A) : leq a b -> leqs a b.
Proof. intros [->| ->]; [left; reflexivity|apply leqs_refl]. Qed.
Lemma leqs_bind {A B} (a b : res A) (f g : A -> res B) : leqs a b -> (forall x, leqs (f x) (g x)) -> leqs (bind a f) (bind b g).
Proof. intros [->|[->| ->]] H; [left; reflexivity|right; left; reflexivity|]. destruct a; cbn; auto using leqs_refl. Qed.
Lemma leqs_need {A} (a b : res (option Z * memory)) (f g : Z -> memory -> res A) : leqs a b -> (forall v h, leqs (f v h) (g v h)) -> leqs (need a f) (need b g).
Proof. intros H1 H2. apply leqs_bind; [exact H1|]. intros [[v|] h]; [apply H2|apply leqs_refl]. Qed.

Definition extra : nat := 4.
Lemma tr_runs : forall n d,
  (forall r h s s', tr s s' -> leqs (EXEC n d r h s) (EXEC (n + extra) d r h s')) /\
  (forall r h l l', trl l l' -> leqs (EXEC_LIST n d r h l) (EXEC_LIST (n + extra) d r h l')) /\
  (forall r h bs bs', trb bs bs' -> leqs (EXEC_IF n d r h bs) (EXEC_IF (n + extra) d r h bs')).
Proof.
  induction n as [|n IH]; intros d; [repeat split; intros; left; reflexivity|].
  destruct (IH d) as (IS & IL & II). clear IH.
  assert (Ev : forall r h e, leqs (EVAL n d r h e) (EVAL (n + extra) d r h e)) by (intros; apply leqs_leq, more; lia).
  change (S n + extra)%nat with (S (n + extra)). repeat split.
  - intros r h s s' T. destruct T as [s|bs bs' T|c b b' T|b b' T].
    + apply leqs_leq. change (S (n + extra)) with (S n + extra)%nat. apply more; lia.
    + rewrite !exec_stmt_step. apply II, T.
    + rewrite !exec_stmt_step. apply leqs_need; [apply Ev|]. intros w h1. destruct (as_bool w) as [[|]|]; try apply leqs_refl.
      apply leqs_bind; [apply IL, T|]. intros [[[|v] r1] h2]; [|apply leqs_refl]. apply IS. constructor. exact T.
    + rewrite !exec_stmt_step. apply IL, T.
  - intros r h l l' T. rewrite !exec_list_step. destruct T as [|s s' l l' T1 T2]; [apply leqs_refl|].
    apply leqs_bind; [apply IS, T1|]. intros [[[|v] r1] h2]; [apply IL, T2|apply leqs_refl].
  - intros r h bs bs' T. destruct T as [| |c b b' bs bs' T1 T2].
    + rewrite !exec_if_step. apply leqs_refl.
    + right. left. rewrite Nat.add_comm. reflexivity.
    + rewrite !exec_if_step. destruct c as [c|].
      * apply leqs_need; [apply Ev|]. intros w h1. destruct (as_bool w) as [[|]|]; [apply IL, T1|apply II, T2|apply leqs_refl].
      * destruct T2 as [| |c2 b2 b2' bs bs' T2 T3]; [apply IL, T1|right; left; reflexivity|apply leqs_refl].
Qed.

Lemma trl_refl l : trl l l.
Proof. induction l; constructor; auto. constructor. Qed.
Lemma trl_app l1 l1' l2 l2' : trl l1 l1' -> trl l2 l2' -> trl (l1 ++ l2) (l1' ++ l2').
Proof. intros T1 T2. induction T1; cbn [app]; [exact T2|]. constructor; auto. Qed.

(** Both lowerings of one statement. *)
Definition related (s : xstmt) : Prop := forall k p k1, lower_with K [] k s = Some (p, k1) ->
  exists c, lower_with K (no_case K) k s = Some (c, k1) /\ tr p c.

Lemma related_list l : Forall related l -> forall k p k1, lower_list K [] k l = Some (p, k1) ->
  exists c, lower_list K (no_case K) k l = Some (c, k1) /\ trl p c.
Proof.
  induction 1 as [|s l Hs Hl IH]; intros k p k1 E; cbn [lower_list] in E |- *.
  - inversion E; subst. eexists. split; [reflexivity|constructor].
  - destruct (lower_with K [] k s) as [[s' k2]|] eqn:Es; [|discriminate].
    destruct (lower_list K [] k2 l) as [[l' k3]|] eqn:El; [|discriminate]. inversion E; subst.
    apply Hs in Es as [c [-> T1]]. apply IH in El as [c' [-> T2]]. eexists. split; [reflexivity|]. constructor; assumption.
Qed.

Lemma lower_related : forall s, related s.
Proof.
  induction s using xstmt_ind'; intros k p k1 L; cbn [lower_with] in L |- *.
  - inversion L; subst. eexists; split; [reflexivity|apply tr_refl].
  - fold (lower_list K []) in L. fold (lower_chain K []) in L. fold (lower_list K (no_case K)). fold (lower_chain K (no_case K)).
    destruct (lower_chain K [] k bs) as [[bs' k2]|] eqn:C; [|discriminate]. inversion L; subst. clear L.
    assert (G : exists bs2, lower_chain K (no_case K) k bs = Some (bs2, k1) /\ trb bs' bs2).
    { revert k bs' C. induction bs as [|[c b] bs IH]; intros k bs' C; cbn [lower_chain] in C |- *.
      - inversion C; subst. eexists; split; [reflexivity|constructor].
      - inversion H as [|? ? Hb Hr]; subst. cbn [snd] in Hb.
        destruct (lower_list K [] k b) as [[b' k2]|] eqn:Eb; [|discriminate].
        destruct (lower_chain K [] k2 bs) as [[r' k3]|] eqn:Er; [|discriminate]. inversion C; subst.
        apply (related_list _ Hb) in Eb as [b2 [-> T1]]. destruct (IH Hr _ _ Er) as [bs2 [-> T2]].
        eexists; split; [reflexivity|]. constructor; assumption. }
    destruct G as [bs2 [-> T]]. eexists; split; [reflexivity|]. constructor. exact T.
  - inversion L; subst. eexists; split; [reflexivity|apply tr_refl].
  - inversion L; subst. eexists; split; [reflexivity|apply tr_refl].
  - fold (lower_list K []) in L. fold (lower_list K (no_case K)).
    destruct (lower_list K [] k b) as [[b' k2]|] eqn:Eb; [|discriminate]. inversion L; subst.
    apply (related_list _ H) in Eb as [b2 [-> T]]. eexists; split; [reflexivity|]. constructor. exact T.
  - inversion L; subst. eexists; split; [reflexivity|apply tr_refl].
  - fold (lower_list K []) in L. fold (lower_list K (no_case K)).
    destruct (lower_list K [] k body) as [[b' k2]|] eqn:Eb; [|discriminate]. inversion L; subst.
    apply (related_list _ H) in Eb as [b2 [-> T]]. eexists; split; [reflexivity|]. constructor. unfold lower_range.
    destruct z; (constructor; [apply tr_refl|constructor; [|constructor]]; constructor; apply trl_app; [exact T|apply trl_refl]).
  - fold (lower_list K []) in L. fold (lower_list K (no_case K)).
    destruct (lower_list K [] (S (S k)) body) as [[b' k2]|] eqn:Eb; [|discriminate]. inversion L; subst.
    apply (related_list _ H) in Eb as [b2 [-> T]]. eexists; split; [reflexivity|]. constructor. unfold lower_array.
    assert (G : forall arr elem, trl
      [SDas (S k) (c_int K) (int_lit K 0); SWhile (ECmp (c_bool K) Lt (EVar (c_int K) (S k)) (length_of K arr)) (SAs (EVar t x) (EIndex elem arr (EVar (c_int K) (S k))) :: b' ++ [inc K (EVar (c_int K) (S k)) 1])]
      [SDas (S k) (c_int K) (int_lit K 0); SWhile (ECmp (c_bool K) Lt (EVar (c_int K) (S k)) (length_of K arr)) (SAs (EVar t x) (EIndex elem arr (EVar (c_int K) (S k))) :: b2 ++ [inc K (EVar (c_int K) (S k)) 1])]).
    { intros arr elem. constructor; [apply tr_refl|constructor; [|constructor]]. constructor. constructor; [apply tr_refl|].
      apply trl_app; [exact T|apply trl_refl]. }
    destruct a; try apply G. constructor; [apply tr_refl|apply G].
  - fold (lower_list K []) in L. fold (lower_cases K []) in L. fold (lower_list K (no_case K)). fold (lower_cases K (no_case K)).
    destruct (lower_cases K [] (S k) cs) as [[cs' k2]|] eqn:C; [|discriminate].
    destruct (lower_match K [] k e cs') as [st|] eqn:M; [|discriminate]. inversion L; subst. clear L.
    assert (G : exists cs2, lower_cases K (no_case K) (S k) cs = Some (cs2, k1) /\
      forall tmp t bs, case_branches K tmp t cs' = Some bs -> exists bs2, case_branches K tmp t cs2 = Some bs2 /\ trb bs (bs2 ++ no_case K) /\ (bs = [] <-> bs2 = [])).
    { clear M. revert cs' C. generalize (S k). induction cs as [|[[tag vars] b] cs IH]; intros k2 cs' C; cbn [lower_cases] in C |- *.
      - inversion C; subst. eexists; split; [reflexivity|]. intros tmp t bs B. cbn in B. inversion B; subst. exists []. split; [reflexivity|]. split; [constructor|reflexivity].
      - inversion H as [|? ? Hb Hr]; subst. cbn [snd] in Hb.
        destruct (lower_list K [] k2 b) as [[b' k3]|] eqn:Eb; [|discriminate].
        destruct (lower_cases K [] k3 cs) as [[r' k4]|] eqn:Er; [|discriminate]. inversion C; subst.
        apply (related_list _ Hb) in Eb as [b2 [-> T1]]. destruct (IH Hr _ _ Er) as [cs2 [-> T2]].
        eexists; split; [reflexivity|]. intros tmp t bs B. cbn [case_branches] in B |- *.
        destruct (case_vars K tmp t 0 vars) as [vs|]; [|discriminate].
        destruct (case_branches K tmp t r') as [bs1|] eqn:B1; [|discriminate]. inversion B; subst.
        destruct (T2 _ _ _ B1) as [bs2 [-> [T3 _]]]. eexists. split; [reflexivity|].
        split; [|split; discriminate]. cbn [app]. constructor; [|exact T3]. apply trl_app; [apply trl_refl|exact T1]. }
    destruct G as [cs2 [-> T]]. unfold lower_match in M |- *. destruct (case_branches K k (typ e) cs') as [bs|] eqn:B; [|discriminate].
    destruct (T _ _ _ B) as [bs2 [-> [T2 Q]]]. destruct bs as [|q bs].
    + rewrite (proj1 Q eq_refl). eexists; split; [reflexivity|]. inversion M; subst. apply tr_refl.
    + destruct bs2 as [|q2 bs2]; [discriminate (proj2 Q eq_refl)|]. eexists; split; [reflexivity|]. inversion M; subst.
      rewrite app_nil_r. constructor. constructor; [apply tr_refl|constructor; [|constructor]]. constructor. exact T2.
Qed.

Lemma checked_runs k body p k1 : last_terminates body = true -> lower_body K k body = Some (p, k1) ->
  exists c, lower_list K (no_case K) k body = Some (c, k1) /\
    forall r h R, finL r h p R ->
      (finL r h c R \/ finL r h c Stuck) /\ ((exists r1 h1, R = Val (ONormal, r1, h1)) -> finL r h c Stuck).
Proof.
  intros T L. unfold lower_body in L.
  assert (F : Forall related body) by (apply Forall_forall; intros; apply lower_related).
  destruct (related_list _ F _ _ _ L) as [c [Lc Tr]]. exists c. split; [exact Lc|].
  intros r h R Fp.
  assert (A : finL r h c R \/ finL r h c Stuck).
  { destruct Fp as [N [n [d E]]]. destruct (proj1 (proj2 (tr_runs n d)) r h _ _ Tr) as [X|[X|X]]; [congruence| |].
    - right. split; [discriminate|eauto].
    - left. split; [exact N|]. exists (n + extra)%nat, d. rewrite X. exact E. }
  split; [exact A|]. intros [r1 [h1 ->]]. destruct A as [A|A]; [|exact A]. exfalso.
  assert (Fn : Forall never body) by (apply Forall_forall; intros; apply terminating_never).
  exact (last_never _ Fn T _ _ _ Lc _ _ _ _ A).
Qed.
End Run.
