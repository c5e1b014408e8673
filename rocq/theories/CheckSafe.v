(** Trees that follow the rules do not go wrong (for C51). *)
From Coq Require Import String List Bool PeanoNat ZArith Lia.
From Verif Require Import TypeModel TypeSpec TypeProofs CheckModel CheckSpec.
Import ListNotations.
Local Open Scope nat_scope.
Local Open Scope list_scope.

(* -------------------------------------------------------------------- types of values *)

Lemma same_at : forall s t u, same t u -> at_types s t = at_types s u.
Proof.
  assert (L : forall s ts, Forall (fun t => forall u, same t u -> at_types s t = at_types s u) ts ->
            forall us, Forall2 same ts us -> map (at_types s) ts = map (at_types s) us).
  { induction 1 as [|t ts H _ IH]; intros us H2; inversion H2; subst; cbn; f_equal; auto. }
  intros s; induction t using ty_induct; intros u S; inversion S; subst; cbn; f_equal; eauto.
Qed.

Lemma at_apply : forall s r t, at_types s (apply r t) = at_types (fun p => at_types s (r p)) t.
Proof.
  assert (L : forall s r ts, Forall (fun t => at_types s (apply r t) = at_types (fun p => at_types s (r p)) t) ts ->
            map (at_types s) (map (apply r) ts) = map (at_types (fun p => at_types s (r p))) ts).
  { induction 1 as [|t ts H _ IH]; cbn; f_equal; auto. }
  intros s r; induction t using ty_induct; cbn; f_equal; auto.
Qed.

Lemma at_ext : forall s r t, (forall p, mentions p t -> s p = r p) -> at_types s t = at_types r t.
Proof.
  assert (L : forall s r ts, Forall (fun t => (forall p, mentions p t -> s p = r p) -> at_types s t = at_types r t) ts ->
            (forall p t, In t ts -> mentions p t -> s p = r p) -> map (at_types s) ts = map (at_types r) ts).
  { induction 1 as [|t ts H _ IH]; cbn; intros E; f_equal; eauto. }
  intros s r; induction t using ty_induct; cbn; intros E; f_equal; eauto using m_struct, m_enum, m_arg, m_ret, m_arr, m_here.
Qed.

(* ------------------------------------------------------------------------------ values *)

Section Safe.
Variables (M : meaning) (P : program) (bodies : list cbody).

Definition knows := list hty.
Definition env_ok (S : knows) (s : nat -> sty) (r : env) (C : ctx) : Prop :=
  Forall2 (fun x y => fst x = fst y /\ nth_error S (snd x) = Some (HVar (at_types s (snd y)))) r C.

Inductive vt (S : knows) : val -> sty -> Prop :=
| vt_int z : vt S (VInt z) SInt
| vt_bool b : vt S (VBool b) SBool
| vt_str s : vt S (VStr s) SString
| vt_bytes z : vt S (VBytes z) SBytes
| vt_ptr z : vt S (VPtr z) SPointer
| vt_nothing : vt S VNothing SNothing
| vt_arr l t : nth_error S l = Some (HArr t) -> vt S (VRef l) (SArr t)
| vt_struct l n ts : nth_error S l = Some (HStruct n ts) -> vt S (VRef l) (SStruct n ts)
| vt_enum l n ts : nth_error S l = Some (HEnum n ts) -> vt S (VRef l) (SEnum n ts)
| vt_fun f d s : nth_error (p_funs P) f = Some d ->
    vt S (VFun f) (SFun (map (at_types s) (map snd (f_params d))) (at_types s (f_ret d)))
| vt_clos ps b r C ret s : env_ok S s r C -> body_ok P (ps ++ C) ret b ->
    vt S (VClos (map fst ps) b r) (SFun (map (at_types s) (map snd ps)) (at_types s ret)).

Definition cell_ok (S : knows) (c : cell) (k : hty) : Prop :=
  match c, k with
  | CellArr vs, HArr t => Forall (fun v => vt S v t) vs
  | CellStruct vs, HStruct n ss => exists ps fs s, assoc n (g_structs (p_env P)) = Some (ps, fs) /\ ss = map s ps /\
      Forall2 (vt S) vs (map (at_types s) (map snd fs)) /\ forall t q, In t (map snd fs) -> mentions q t -> In q ps
  | CellCons tag vs, HEnum n ss => exists ps ms f d s, assoc n (g_enums (p_env P)) = Some (ps, ms) /\ ss = map s ps /\
      nth_error ms tag = Some f /\ nth_error (p_funs P) f = Some d /\
      Forall2 (vt S) vs (map (at_types s) (map snd (f_params d))) /\ forall t q, In t (map snd (f_params d)) -> mentions q t -> In q ps
  | CellVar v, HVar t => vt S v t
  | _, _ => False
  end.
Definition heap_ok (S : knows) (h : heap) : Prop := Forall2 (cell_ok S) h S.
Definition more (S S' : knows) : Prop := exists S2, S' = S ++ S2.

Lemma more_refl : forall S, more S S.
Proof. intros S; exists []; now rewrite app_nil_r. Qed.
Lemma more_trans : forall A B C, more A B -> more B C -> more A C.
Proof. intros A B C [x ->] [y ->]; exists (x ++ y); now rewrite app_assoc. Qed.
Lemma more_one : forall S k, more S (S ++ [k]).
Proof. intros; eexists; reflexivity. Qed.
Lemma more_nth : forall S S' l k, more S S' -> nth_error S l = Some k -> nth_error S' l = Some k.
Proof.
  intros S S' l k [x ->] H; rewrite nth_error_app1; auto; apply nth_error_Some; congruence.
Qed.
Lemma more_env : forall S S' s r C, more S S' -> env_ok S s r C -> env_ok S' s r C.
Proof. intros S S' s r C H E; induction E as [|x y r C [H1 H2]]; constructor; auto; split; eauto using more_nth. Qed.
Lemma more_vt : forall S S' v t, more S S' -> vt S v t -> vt S' v t.
Proof. intros S S' v t H V; inversion V; subst; econstructor; eauto using more_nth, more_env. Qed.
Lemma more_vts : forall S S' vs ts, more S S' -> Forall2 (vt S) vs ts -> Forall2 (vt S') vs ts.
Proof. intros S S' vs ts H V; induction V; constructor; eauto using more_vt. Qed.
Lemma more_cell : forall S S' c k, more S S' -> cell_ok S c k -> cell_ok S' c k.
Proof.
  intros S S' c k H; destruct c, k; cbn; auto.
  - intros F; eapply Forall_impl; [|exact F]; cbn; eauto using more_vt.
  - intros (ps & fs & s & A & B & C & D); exists ps, fs, s; eauto using more_vts.
  - intros (ps & ms & f & d & s & A & B & C & D & E & G); exists ps, ms, f, d, s; repeat (split; eauto using more_vts).
  - eauto using more_vt.
Qed.
Lemma more_heap : forall S S' h hs, more S S' -> Forall2 (cell_ok S) h hs -> Forall2 (cell_ok S') h hs.
Proof. intros S S' h hs H F; induction F; constructor; eauto using more_cell. Qed.

Lemma heap_length : forall S h, heap_ok S h -> length h = length S.
Proof. intros S h; apply forall2_length. Qed.
Lemma heap_add : forall S h c k, heap_ok S h -> cell_ok S c k -> heap_ok (S ++ [k]) (h ++ [c]).
Proof.
  intros S h c k H K; apply Forall2_app; [|constructor; [|constructor]].
  - eapply more_heap; eauto using more_one.
  - eapply more_cell; eauto using more_one.
Qed.
Lemma added : forall S h k, heap_ok S h -> nth_error (S ++ [k]) (length h) = Some k.
Proof.
  intros S h k H; rewrite (heap_length _ _ H), nth_error_app2, Nat.sub_diag by lia; reflexivity.
Qed.
Lemma heap_get : forall S h l k, heap_ok S h -> nth_error S l = Some k -> exists c, nth_error h l = Some c /\ cell_ok S c k.
Proof.
  intros S; assert (forall h S' l k, Forall2 (cell_ok S) h S' -> nth_error S' l = Some k -> exists c, nth_error h l = Some c /\ cell_ok S c k); [|eauto].
  intros h S' l k H; revert l; induction H as [|c k0 h S' H0 H IH]; intros l L.
  - destruct l; discriminate.
  - destruct l; cbn in *; [injection L as <-|]; eauto.
Qed.
Lemma heap_set : forall S h l c k, heap_ok S h -> nth_error S l = Some k -> cell_ok S c k -> heap_ok S (set_cell h l c).
Proof.
  intros S; assert (forall h S' l c k, Forall2 (cell_ok S) h S' -> nth_error S' l = Some k -> cell_ok S c k -> Forall2 (cell_ok S) (set_cell h l c) S');
    [|unfold heap_ok; eauto].
  intros h S' l c k H; revert l; induction H as [|c0 k0 h S' H0 H IH]; intros l L K.
  - constructor.
  - destruct l; cbn in *; [injection L as <-|]; constructor; eauto.
Qed.
Lemma set_vals : forall S vs ts i v t, Forall2 (vt S) vs ts -> nth_error ts i = Some t -> vt S v t -> Forall2 (vt S) (set_val vs i v) ts.
Proof.
  intros S vs ts i v t H; revert i; induction H; intros i L V; destruct i; cbn in *; try discriminate; constructor; auto; congruence.
Qed.
Lemma set_all : forall S vs i v t, Forall (fun v => vt S v t) vs -> vt S v t -> Forall (fun v => vt S v t) (set_val vs i v).
Proof. intros S vs i v t H; revert i; induction H; intros i V; destruct i; cbn; constructor; auto. Qed.

Lemma env_get : forall S s r C x t, env_ok S s r C -> assoc x C = Some t ->
  exists l, assoc x r = Some l /\ nth_error S l = Some (HVar (at_types s t)).
Proof.
  intros S s r C x t E; induction E as [|[y l] [z u] r C [H1 H2] E IH]; cbn in *; try discriminate; subst z.
  destruct (String.eqb x y); [intros [= ->]; eauto | auto].
Qed.
Lemma env_add : forall S s r C x t h, env_ok S s r C -> heap_ok S h -> env_ok (S ++ [HVar (at_types s t)]) s ((x, length h) :: r) ((x, t) :: C).
Proof.
  intros S s r C x t h E H; constructor; [|eapply more_env; eauto using more_one].
  cbn; split; auto; apply added; auto.
Qed.
Lemma vars_ok : forall s ps vs S h, heap_ok S h -> Forall2 (vt S) vs (map (at_types s) (map snd ps)) ->
  exists h' r S', new_vars h (map fst ps) vs = Some (h', r) /\ more S S' /\ heap_ok S' h' /\ env_ok S' s r ps.
Proof.
  intros s; induction ps as [|[x t] ps IH]; intros vs S h H V; inversion V; subst; cbn.
  - exists h, [], S; repeat split; auto using more_refl; constructor.
  - match goal with A : vt S ?v _, B : Forall2 _ ?l _ |- _ =>
      destruct (IH l (S ++ [HVar (at_types s t)]) (h ++ [CellVar v])) as (h' & r & S' & E & X & Y & Z) end.
    + apply heap_add; auto.
    + eapply more_vts; eauto using more_one.
    + rewrite E; exists h', ((x, length h) :: r), S'; repeat split; auto; [eapply more_trans; eauto using more_one|].
      constructor; auto; cbn; split; auto; eapply more_nth; eauto using added.
Qed.
Lemma capture_ok : forall s r C S h, heap_ok S h -> env_ok S s r C ->
  exists h' r' S', capture h r = Some (h', r') /\ more S S' /\ heap_ok S' h' /\ env_ok S' s r' C.
Proof.
  intros s; induction r as [|[x l] r IH]; intros C S h H E; inversion E as [|? [y t] ? C' [H1 H2] E']; subst; cbn.
  - exists h, [], S; repeat split; auto using more_refl.
  - cbn in *; subst y; destruct (heap_get _ _ _ _ H H2) as (c & -> & K); destruct c; cbn in K; try contradiction.
    destruct (IH C' (S ++ [HVar (at_types s t)]) (h ++ [CellVar v])) as (h' & r' & S' & Q & X & Y & Z).
    + apply heap_add; auto.
    + eapply more_env; eauto using more_one.
    + rewrite Q; exists h', ((x, length h) :: r'), S'; repeat split; auto; [eapply more_trans; eauto using more_one|].
      constructor; auto; cbn; split; auto; eapply more_nth; eauto using added.
Qed.

(* ------------------------------------------------------------------------------- runs *)

Definition good {A} (S : knows) (r : run (A * heap)) (Q : knows -> A -> Prop) : Prop :=
  match r with
  | Fine (a, h) => exists S', more S S' /\ heap_ok S' h /\ Q S' a
  | Wrong => False
  | _ => True
  end.
Lemma good_bind : forall {A B} S (r : run (A * heap)) (f : A * heap -> run (B * heap)) (Q : knows -> A -> Prop) R,
  good S r Q -> (forall S' a h, more S S' -> heap_ok S' h -> Q S' a -> good S' (f (a, h)) R) -> good S (bind r f) R.
Proof.
  intros A B S r f Q R G H; destruct r as [[a h]| | |]; cbn in *; auto.
  destruct G as (S' & X & Y & Z); specialize (H S' a h X Y Z).
  destruct (f (a, h)) as [[b h']| | |]; cbn in *; auto.
  destruct H as (S2 & X2 & Y2 & Z2); exists S2; eauto using more_trans.
Qed.
Lemma good_fine : forall {A} S (a : A) h (Q : knows -> A -> Prop), heap_ok S h -> Q S a -> good S (Fine (a, h)) Q.
Proof. intros; exists S; auto using more_refl. Qed.
Lemma good_more : forall {A} S S' (r : run (A * heap)) Q, more S S' -> good S' r Q -> good S r Q.
Proof.
  intros A S S' r Q X G; destruct r as [[a h]| | |]; cbn in *; auto.
  destruct G as (S2 & X2 & Y2 & Z2); exists S2; eauto using more_trans.
Qed.
Lemma good_impl : forall {A} S (r : run (A * heap)) (Q R : knows -> A -> Prop), good S r Q ->
  (forall S' a, more S S' -> Q S' a -> R S' a) -> good S r R.
Proof.
  intros A S r Q R G H; destruct r as [[a h]| | |]; cbn in *; auto.
  destruct G as (S2 & X2 & Y2 & Z2); exists S2; eauto.
Qed.

Definition safe_eval (n : nat) : Prop := forall S s r h C e t, heap_ok S h -> env_ok S s r C -> typed P C e t ->
  good S (eval M P bodies n r h e) (fun S' v => vt S' v (at_types s t)).
Definition done (S : knows) (s : nat -> sty) (ret : ty) (C : ctx) (ends : Prop) (f : flow) : Prop :=
  match f with Next r => env_ok S s r C /\ ~ ends | Ret v => vt S v (at_types s ret) end.
Definition safe_exec (n : nat) : Prop := forall S s r h C ret k C1, heap_ok S h -> env_ok S s r C -> ok P C ret k C1 ->
  good S (exec M P bodies n r h k) (fun S' f => done S' s ret C1 (returns k) f).
Definition safe_call (n : nat) : Prop := forall S h f vs ps t, heap_ok S h -> vt S f (SFun ps t) -> Forall2 (vt S) vs ps ->
  good S (call M P bodies n h f vs) (fun S' v => vt S' v t).

Lemma evals_safe : forall n, safe_eval n -> forall es ts S s r h C, heap_ok S h -> env_ok S s r C -> Forall2 (typed P C) es ts ->
  good S (evals (eval M P bodies n r) h es) (fun S' vs => Forall2 (vt S') vs (map (at_types s) ts)).
Proof.
  intros n E; induction es as [|e es IH]; intros ts S s r h C H X T; inversion T; subst; cbn [evals].
  - apply good_fine; auto; constructor.
  - eapply good_bind; [eapply E; eauto|]. cbn beta. intros S1 v h1 Ma Ha Va.
    eapply good_bind; [eapply IH; eauto using more_env|]. cbn beta. intros S2 vs h2 Mb Hb Vb.
    apply good_fine; auto; cbn; constructor; eauto using more_vt.
Qed.

Lemma block_safe : forall n, safe_exec n -> forall ks S s r h C ret, heap_ok S h -> env_ok S s r C -> oks P C ret ks ->
  good S (block (exec M P bodies n) r h ks) (fun S' f => match f with Next _ => ~ Exists returns ks | Ret v => vt S' v (at_types s ret) end).
Proof.
  intros n E; induction ks as [|k ks IH]; intros S s r h C ret H X T; inversion T; subst; cbn [block].
  - apply good_fine; auto; intros Q; inversion Q.
  - eapply good_bind; [eapply E; eauto|]. cbn beta. intros S1 f h1 Ma Ha Va; destruct f as [r1|v]; cbn in Va.
    + destruct Va as [Va N]. eapply good_impl; [eapply IH; eauto|]. intros S2 f Mb Q; destruct f; auto.
      intros X2; inversion X2; subst; auto.
    + apply good_fine; auto.
Qed.
(** A block whose variables end with it. *)
Definition inner (n : nat) (r0 r : env) (h : heap) (ks : list cstmt) : run (flow * heap) :=
  do (f, h1) <- block (exec M P bodies n) r h ks; Fine (match f with Next _ => Next r0 | Ret v => Ret v end, h1).
Lemma inner_safe : forall n, safe_exec n -> forall ks S s r0 C0 r h C ret, heap_ok S h -> env_ok S s r0 C0 -> env_ok S s r C -> oks P C ret ks ->
  good S (inner n r0 r h ks) (fun S' f => done S' s ret C0 (Exists returns ks) f).
Proof.
  intros n E ks S s r0 C0 r h C ret H X0 X T; unfold inner.
  eapply good_bind; [eapply block_safe; eauto|]. cbn beta. intros S1 f h1 Ma Ha Va; apply good_fine; auto.
  destruct f; cbn; auto; split; eauto using more_env.
Qed.

Lemma each_safe : forall s ret C Cb r ends (body : heap -> val -> run (flow * heap)) t vs S h,
  (forall S h v, heap_ok S h -> env_ok S s r C -> vt S v t -> good S (body h v) (fun S' f => done S' s ret Cb ends f)) ->
  heap_ok S h -> env_ok S s r C -> Forall (fun v => vt S v t) vs ->
  good S (each body r h vs) (fun S' f => done S' s ret C False f).
Proof.
  intros s ret C Cb r ends body t; induction vs as [|v vs IH]; intros S h B H X V; cbn [each].
  - apply good_fine; auto; cbn; auto.
  - inversion V; subst. eapply good_bind; [eapply B; eauto|]. cbn beta. intros S1 f h1 Ma Ha Va; destruct f; cbn in Va.
    + apply IH; eauto using more_env. eapply Forall_impl; [|eassumption]; cbn; eauto using more_vt.
    + apply good_fine; auto.
Qed.
Lemma rounds_safe : forall s ret C Cb r ends (body : heap -> val -> run (flow * heap)) t l k i S h,
  (forall S h v, heap_ok S h -> env_ok S s r C -> vt S v t -> good S (body h v) (fun S' f => done S' s ret Cb ends f)) ->
  heap_ok S h -> env_ok S s r C -> nth_error S l = Some (HArr t) ->
  good S (rounds body r l k i h) (fun S' f => done S' s ret C False f).
Proof.
  intros s ret C Cb r ends body t l; induction k as [|k IH]; intros i S h B H X L; cbn [rounds]; [exact I|].
  destruct (heap_get _ _ _ _ H L) as (c & -> & K); destruct c; cbn in K; try contradiction.
  destruct (nth_error vs i) as [v|] eqn:E; [|apply good_fine; cbn; auto].
  eapply good_bind; [eapply B; eauto|].
  { rewrite Forall_forall in K; apply K; eapply nth_error_In; eauto. }
  cbn beta. intros S1 f h1 Ma Ha Va; destruct f; cbn in Va.
  - apply IH; eauto using more_env, more_nth.
  - apply good_fine; auto.
Qed.

Hypothesis WT : well_typed P bodies.
Hypothesis EX : externs_ok M P bodies.

Lemma plain_vt : forall S s v t, plain_val v t -> vt S v (at_types s t).
Proof. intros S s v t H; destruct t, v; cbn in *; try contradiction; constructor. Qed.

Lemma map_params : forall s (ps : list nat), map (at_types s) (map TParam ps) = map s ps.
Proof. induction ps; cbn; congruence. Qed.

Lemma body_safe : forall n, safe_eval n -> safe_exec n -> forall b S s r h C ret, heap_ok S h -> env_ok S s r C -> body_ok P C ret b ->
  good S (match b with
      | CBlock ks => do (f, h1) <- block (exec M P bodies n) r h ks; Fine (match f with Next _ => VNothing | Ret v => v end, h1)
      | CBody e => eval M P bodies n r h e
      | _ => Wrong
      end) (fun S' v => vt S' v (at_types s ret)).
Proof.
  intros n E X b S s r h C ret H R B; destruct b; cbn in B; try contradiction.
  - destruct B as [B T]. eapply good_bind; [eapply block_safe; eauto|]. cbn beta. intros S1 f h1 Ma Ha Va; apply good_fine; auto.
    destruct f; auto. destruct T as [->|T]; [constructor|contradiction].
  - destruct B as (t & B & T). rewrite (same_at s _ _ T); eauto.
Qed.

Lemma call_step : forall n, safe_eval n -> safe_exec n -> safe_call (S n).
Proof.
  intros n E X S h f vs ps t H F V; inversion F as [| | | | | | | | |f0 d s H0|]; subst.
  - (* function *)
    destruct WT as [WL W]. destruct (nth_error bodies f0) as [b|] eqn:B.
    2:{ apply nth_error_None in B. assert (f0 < length (p_funs P)) by (apply nth_error_Some; congruence). lia. }
    destruct (W _ _ _ H0 B) as [FO OT]. cbn [call]. rewrite H0, B.
    assert (Q : length vs = length (f_params d)) by (rewrite (forall2_length _ _ _ V), !map_length; auto).
    rewrite Q, Nat.eqb_refl; cbn [negb].
    destruct (vars_ok _ _ _ _ _ H V) as (h' & r & S' & N & Ma & Ha & E1).
    destruct b as [ks|e|s0|s0 tag|]; cbn in FO, OT.
    + rewrite N; cbn [or_wrong]. eapply good_more; eauto. destruct FO as [_ FO].
      eapply (body_safe n E X (CBlock ks)); eauto.
    + rewrite N; cbn [or_wrong]. eapply good_more; eauto. destruct FO as [_ FO].
      eapply (body_safe n E X (CBody e)); eauto.
    + destruct FO as (i & fs & A1 & A2 & A3). destruct OT as [ND OT]. rewrite A3. cbn [at_types]. rewrite map_params.
      exists (S ++ [HStruct s0 (map s (map snd (f_types d)))]); split; [apply more_one|split].
      * apply heap_add; auto. cbn. exists (map snd (f_types d)), fs, s; rewrite A2; repeat split; auto.
        intros u q I U; apply in_map_iff in I as (p & <- & I); eauto.
      * constructor; apply added; auto.
    + destruct FO as (i & ms & A1 & A2 & A3). destruct OT as [ND OT]. rewrite A3. cbn [at_types]. rewrite map_params.
      exists (S ++ [HEnum s0 (map s (map snd (f_types d)))]); split; [apply more_one|split].
      * apply heap_add; auto. cbn. exists (map snd (f_types d)), ms, f0, d, s; repeat split; auto.
        intros u q I U; apply in_map_iff in I as (p & <- & I); eauto.
      * constructor; apply added; auto.
    + destruct (m_extern M f0 vs) as [v|] eqn:EE; cbn [or_halt]; [|exact I].
      apply good_fine; auto. apply plain_vt; eapply EX; eauto.
  - (* closure *)
    destruct (vars_ok _ _ _ _ _ H V) as (h' & r' & S' & N & Ma & Ha & E1). cbn [call]; rewrite N; cbn [or_wrong].
    eapply good_more; eauto. eapply (body_safe n E X b); eauto. apply Forall2_app; eauto using more_env.
    eapply more_env; eauto.
Qed.

Lemma evals_same : forall s ts us, Forall2 same ts us -> map (at_types s) ts = map (at_types s) us.
Proof. intros s ts us H; induction H; cbn; f_equal; auto using same_at. Qed.
Lemma args_same : forall s r ts (ps : list (string * ty)), Forall2 (fun u p => same u (apply r (snd p))) ts ps ->
  map (at_types s) ts = map (at_types (fun p => at_types s (r p))) (map snd ps).
Proof. intros s r ts ps H; induction H as [|u p ts ps H _ IH]; cbn; f_equal; auto. rewrite (same_at s _ _ H); apply at_apply. Qed.

Lemma with_at : forall s r ps ts p, map (at_types s) ts = map r ps -> In p ps -> at_types s (with_types ps ts p) = r p.
Proof.
  intros s r; induction ps as [|q ps IH]; intros ts p H I; [inversion I|]. destruct ts as [|t ts]; cbn in H; [discriminate|].
  injection H as H0 H. cbn. destruct (Nat.eqb_spec q p); subst; auto. destruct I; [contradiction|auto].
Qed.
Lemma place_field : forall {A} x (fs : list (string * A)) t, assoc x fs = Some t -> exists i, place_of x fs = Some i /\ nth_error (map snd fs) i = Some t.
Proof.
  intros A x; induction fs as [|[y u] fs IH]; cbn; intros t H; [discriminate|]. destruct (String.eqb x y).
  - injection H as ->; exists 0; auto.
  - destruct (IH _ H) as (i & -> & N); exists (Datatypes.S i); auto.
Qed.
Lemma forall2_nth : forall {A B} (R : A -> B -> Prop) l m i b, Forall2 R l m -> nth_error m i = Some b -> exists a, nth_error l i = Some a /\ R a b.
Proof. intros A B R l m i b H; revert i; induction H; intros [|i] N; cbn in *; try discriminate; eauto; injection N as ->; eauto. Qed.
(** What a struct holds at the place of a field. *)
Lemma field_ok : forall S s vs n ts ps fs x t u, cell_ok S (CellStruct vs) (HStruct n (map (at_types s) ts)) ->
  assoc n (g_structs (p_env P)) = Some (ps, fs) -> assoc x fs = Some t -> same u (apply (with_types ps ts) t) ->
  exists i v, field_place P n x = Some i /\ nth_error vs i = Some v /\ vt S v (at_types s u) /\
    forall w, vt S w (at_types s u) -> cell_ok S (CellStruct (set_val vs i w)) (HStruct n (map (at_types s) ts)).
Proof.
  intros S s vs n ts ps fs x t u (ps' & fs' & s' & A & B & C & D) A' F U. rewrite A in A'; injection A' as -> ->.
  destruct (place_field _ _ _ F) as (i & I & N).
  assert (N' : nth_error (map (at_types s') (map snd fs)) i = Some (at_types s u)).
  { rewrite nth_error_map, N; cbn; f_equal. rewrite (same_at s _ _ U), at_apply. apply at_ext; intros p Q; symmetry; apply with_at; auto.
    eapply D; eauto; eapply nth_error_In; eauto. }
  destruct (forall2_nth _ _ _ _ _ C N') as (v & L & V). exists i, v; repeat split; auto.
  - unfold field_place; rewrite A; auto.
  - intros w W; cbn. exists ps, fs, s'; repeat split; auto. eapply set_vals; eauto.
Qed.
Lemma in_bounds_nth : forall (i : Z) n j, in_bounds i n = Some j -> j < n.
Proof.
  unfold in_bounds; intros i n j; destruct ((0 <=? i)%Z && (i <? Z.of_nat n)%Z) eqn:E; [|discriminate]; intros [= <-].
  apply andb_true_iff in E as [A B]; apply Z.leb_le in A; apply Z.ltb_lt in B; lia.
Qed.

Ltac step E := eapply good_bind; [eapply E; eauto using more_env, more_trans|]; cbn beta iota.
Ltac fine := apply good_fine; [solve [auto]|cbn beta iota].
Ltac gone := match goal with V : vt _ _ (at_types _ _) |- _ => cbn in V; inversion V; subst; clear V end.

Lemma eval_step : forall n, safe_eval n -> safe_exec n -> safe_call n -> safe_eval (S n).
Proof.
  intros n E X K S s r h C e t H R T. destruct T; simpl eval.
  - fine; constructor.
  - fine; constructor.
  - fine; constructor.
  - destruct (env_get _ _ _ _ _ _ R H0) as (l & -> & L); cbn [or_wrong].
    destruct (heap_get _ _ _ _ H L) as (c & -> & Q); destruct c; cbn in Q; try contradiction; fine; auto.
  - fine; cbn; econstructor; eauto.
  - step E; intros S1 u h1 Ma Ha Va. step E; intros S2 v h2 Mb Hb Vb. cbn in Va, Vb; inversion Va; inversion Vb; subst.
    destruct (m_arith M o z z0); cbn [or_halt]; [fine; constructor|exact I].
  - step E; intros S1 u h1 Ma Ha Va. step E; intros S2 v h2 Mb Hb Vb. cbn in Va, Vb; inversion Va; inversion Vb; subst. fine; constructor.
  - step E; intros S1 u h1 Ma Ha Va. step E; intros S2 v h2 Mb Hb Vb. cbn in Va, Vb; inversion Va; inversion Vb; subst. fine; constructor.
  - step E; intros S1 u h1 Ma Ha Va. cbn in Va; inversion Va; subst. fine; constructor.
  - step E; intros S1 u h1 Ma Ha Va. cbn in Va; inversion Va; subst. fine; constructor.
  - step E; intros S1 u h1 Ma Ha Va. cbn in Va; inversion Va; subst. fine; constructor.
  - (* call of a function *)
    eapply good_bind with (Q := fun S' v => v = VFun f).
    { destruct n; [exact I|]. simpl eval; fine; auto. }
    intros S1 u h1 Ma Ha ->. eapply good_bind; [eapply (evals_safe n E); eauto using more_env|]. cbn beta iota. intros S2 vs h2 Mb Hb Vb.
    rewrite (same_at s _ _ H3), at_apply. eapply K; [eauto|apply vt_fun; eauto|].
    erewrite <- args_same; eauto.
  - step E; intros S1 u h1 Ma Ha Va. eapply good_bind; [eapply (evals_safe n E); eauto using more_env|]. cbn beta iota. intros S2 vs h2 Mb Hb Vb.
    cbn in Va. eapply K; eauto using more_vt. erewrite <- evals_same; eauto.
  - eapply good_bind; [eapply (evals_safe n E); eauto using more_env|]. cbn beta iota. intros S2 vs h2 Mb Hb Vb. fine; constructor.
  - step E; intros S1 u1 h1 Ma Ha Va. cbn in Va; inversion Va as [| | | | | | |l n' ts' L| | |]; subst.
    destruct (heap_get _ _ _ _ Ha L) as (c & -> & Q); destruct c; try (cbn in Q; contradiction).
    destruct (field_ok _ _ _ _ _ _ _ _ _ _ Q H0 H1 H2) as (i & v & -> & N & V & _); cbn [or_wrong].
    rewrite N; cbn [or_wrong]. fine; auto.
  - step E; intros S1 u1 h1 Ma Ha Va. cbn in Va; inversion Va as [| | | | | |l t' L| | | |]; subst.
    destruct (heap_get _ _ _ _ Ha L) as (c & -> & Q); destruct c; try (cbn in Q; contradiction). fine; constructor.
  - step E; intros S1 u1 h1 Ma Ha Va. cbn in Va; inversion Va; subst. fine; constructor.
  - step E; intros S1 u h1 Ma Ha Va. step E; intros S2 v h2 Mb Hb Vb. cbn in Va, Vb; inversion Va as [| | | | | |l0 t' L| | | |]; inversion Vb; subst.
    destruct (heap_get _ _ _ _ Hb (more_nth _ _ _ _ Mb L)) as (c & -> & Q); destruct c; try (cbn in Q; contradiction).
    destruct (in_bounds z (length vs)) as [j|] eqn:IB; cbn [or_halt]; [|exact I].
    destruct (nth_error vs j) as [w|] eqn:N; cbn [or_wrong].
    + fine. cbn in Q. rewrite Forall_forall in Q; apply Q; eapply nth_error_In; eauto.
    + apply nth_error_None in N; apply in_bounds_nth in IB; lia.
  - eapply good_bind; [eapply (evals_safe n E); eauto using more_env|]. cbn beta iota. intros S2 vs h2 Mb Hb Vb.
    exists (S2 ++ [HArr (at_types s t)]); split; [apply more_one|split].
    + apply heap_add; auto. cbn. clear - Vb H1. revert vs Vb; induction H1; cbn; intros vs V; inversion V; subst; constructor; auto.
      rewrite <- (same_at s _ _ H); auto.
    + cbn; constructor; apply added; auto.
  - step E; intros S1 u1 h1 Ma Ha Va. cbn in Va; inversion Va; subst. destruct b0.
    + eapply E; eauto using more_env.
    + rewrite (same_at s _ _ H0). eapply E; eauto using more_env.
  - destruct (capture_ok _ _ _ _ _ H R) as (h' & r' & S' & -> & Ma & Ha & Ra); cbn [or_wrong].
    exists S'; repeat split; auto. cbn. econstructor; eauto. cbn; auto.
  - destruct (capture_ok _ _ _ _ _ H R) as (h' & r' & S' & -> & Ma & Ha & Ra); cbn [or_wrong].
    exists S'; repeat split; auto. cbn. econstructor; eauto. cbn; eauto.
Qed.

Lemma find_case : forall tag (cases : list (nat * list string * list cstmt)), In tag (map (fun c => fst (fst c)) cases) ->
  exists c, List.find (fun c => fst (fst c) =? tag) cases = Some c /\ In c cases /\ fst (fst c) = tag.
Proof.
  intros tag; induction cases as [|c cases IH]; cbn; intros I; [contradiction|].
  destruct (Nat.eqb_spec (fst (fst c)) tag); [eauto|]. destruct I; [contradiction|].
  destruct IH as (c' & -> & A & B); eauto.
Qed.
Lemma combine_vars : forall (xs : list string) (us : list ty), length xs = length us ->
  map fst (combine xs us) = xs /\ map snd (combine xs us) = us.
Proof. induction xs as [|x xs IH]; intros [|u us]; cbn; intros L; try discriminate; auto. destruct (IH us) as [-> ->]; auto. Qed.

Lemma exec_step : forall n, safe_eval n -> safe_exec n -> safe_exec (S n).
Proof.
  intros n E X S s r h C ret k C1 H R T. destruct T; simpl exec.
  - step E; intros S1 u h1 Ma Ha Va. fine; cbn; split; eauto using more_env. intros Q; inversion Q.
  - step E; intros S1 u h1 Ma Ha Va. exists (S1 ++ [HVar (at_types s t)]); split; [apply more_one|split].
    + apply heap_add; auto.
    + cbn; split; [apply env_add; eauto using more_env|]. intros Q; inversion Q.
  - (* assignment *)
    step E; intros S1 v h1 Ma Ha Va. rewrite <- (same_at s _ _ H3) in Va.
    destruct l; cbn in H0; try contradiction.
    + inversion H1; subst. destruct (env_get _ _ _ _ _ _ R H6) as (l & -> & L); cbn [or_wrong].
      pose proof (more_nth _ _ _ _ Ma L) as L1.
      destruct (heap_get _ _ _ _ Ha L1) as (c & -> & Q); destruct c; try (cbn in Q; contradiction).
      apply good_fine; [eapply heap_set; eauto|]. cbn; split; eauto using more_env. intros Z; inversion Z.
    + inversion H1 as [| | | | | | | | | | | | | |C' e0 d n' ts ps fs x0 t0 u0 T0 A1 A2 A3| | | | | | |]; subst.
      step E; intros S2 u1 h2 Mb Hb Vb. cbn in Vb; inversion Vb as [| | | | | | |l9 n9 ts9 L| | |]; subst.
      destruct (heap_get _ _ _ _ Hb L) as (c & -> & Q); destruct c; try (cbn in Q; contradiction).
      destruct (field_ok _ _ _ _ _ _ _ _ _ _ Q A1 A2 A3) as (i & w & -> & N & _ & W); cbn [or_wrong].
      assert (i < length vs) as J by (apply nth_error_Some; congruence). apply Nat.ltb_lt in J; rewrite J.
      apply good_fine; [|cbn; split; eauto using more_env, more_trans; intros Z; inversion Z].
      eapply heap_set; eauto using more_vt.
    + inversion H1; subst. step E; intros S2 u1 h2 Mb Hb Vb. step E; intros S3 u2 h3 Mc Hc Vc.
      cbn in Vb, Vc; inversion Vb as [| | | | | |l0 t' L| | | |]; inversion Vc; subst.
      pose proof (more_nth _ _ _ _ Mc L) as L1.
      destruct (heap_get _ _ _ _ Hc L1) as (c & -> & Q); destruct c; try (cbn in Q; contradiction).
      destruct (in_bounds z (length vs)) as [j|] eqn:IB; cbn [or_halt]; [|exact I].
      apply good_fine; [|cbn; split; eauto using more_env, more_trans; intros Z; inversion Z].
      eapply heap_set; eauto. cbn. apply set_all; eauto using more_vt.
  - (* while *)
    step E; intros S1 v h1 Ma Ha Va. cbn in Va; inversion Va; subst. destruct b.
    + eapply good_bind; [eapply (inner_safe n X); eauto using more_env|]. cbn beta iota. intros S2 f h2 Mb Hb Vb. destruct f; cbn in Vb.
      * eapply good_impl; [eapply X; eauto using more_env, more_trans; econstructor; eauto|]. cbn; auto.
      * fine; auto.
    + fine; cbn; split; eauto using more_env. intros Z; inversion Z.
  - (* for in *)
    step E; intros S1 v h1 Ma Ha Va. cbn in Va; inversion Va as [| | | | | |l0 t' L| | | |]; subst.
    eapply good_impl; [eapply rounds_safe with (t := at_types s t) (s := s) (C := C) (Cb := (x, t) :: C) (ret := ret) (ends := Exists returns body)|]; eauto using more_env.
    + intros S2 h2 w Hb Rb Vb. eapply good_more; [apply (more_one S2 (HVar (at_types s t)))|]. eapply (inner_safe n X).
      * apply heap_add; [eauto|]; cbn; eauto.
      * apply env_add; eauto.
      * apply env_add; eauto.
      * eauto.
    + cbn. intros S2 [r2|w] Mb; cbn; auto. intros [A _]; split; auto. intros Z; inversion Z.
  - (* for range *)
    step E; intros S1 v h1 Ma Ha Va. step E; intros S2 w h2 Mb Hb Vb. cbn in Va, Vb; inversion Va; inversion Vb; subst.
    eapply good_impl; [eapply each_safe with (t := at_types s TInt) (s := s) (C := C) (Cb := (x, TInt) :: C) (ret := ret) (ends := Exists returns body)|]; eauto using more_env, more_trans.
    + intros S3 h3 w Hc Rc Vc. eapply good_more; [apply (more_one S3 (HVar (at_types s TInt)))|]. eapply (inner_safe n X).
      * apply heap_add; [eauto|]; cbn; eauto.
      * apply (env_add S3 s r C x TInt); eauto.
      * apply (env_add S3 s r C x TInt); eauto.
      * eauto.
    + clear. apply Forall_forall; intros w I; apply in_map_iff in I as (i & <- & _); constructor.
    + cbn. intros S3 [r2|w] Mc; cbn; auto. intros [A _]; split; auto. intros Z; inversion Z.
  - (* if *)
    step E; intros S1 v h1 Ma Ha Va. cbn in Va; inversion Va; subst. destruct b.
    + eapply good_impl; [eapply (inner_safe n X); eauto using more_env|]. cbn beta iota. intros S2 [r2|w] Mb; cbn; auto.
      intros [A _]; split; auto. intros Z; inversion Z.
    + fine; cbn; split; eauto using more_env. intros Z; inversion Z.
  - step E; intros S1 v h1 Ma Ha Va. cbn in Va; inversion Va; subst. destruct b.
    + eapply good_impl; [eapply (inner_safe n X); eauto using more_env|]. cbn beta iota. intros S2 [r2|w] Mb; cbn; auto.
      intros [A B]; split; auto. intros Z; inversion Z; subst; contradiction.
    + eapply good_bind; [eapply X; eauto using more_env|]. cbn beta iota. intros S2 f h2 Mb Hb Vb. fine. destruct f; cbn in *; auto.
      split; eauto using more_env, more_trans. intros Z; inversion Z; subst. destruct Vb; contradiction.
  - eapply good_impl; [eapply (inner_safe n X); eauto using more_env|]. cbn beta iota. intros S2 [r2|w] Mb; cbn; auto.
    intros [A B]; split; auto. intros Z; inversion Z; subst; contradiction.
  - fine; cbn. rewrite (same_at s _ _ H0); constructor.
  - step E; intros S1 v h1 Ma Ha Va. fine; cbn. rewrite (same_at s _ _ H1); auto.
  - (* match *)
    step E; intros S1 v h1 Ma Ha Va. cbn in Va; inversion Va as [| | | | | | | |l n' ts' L| |]; subst.
    destruct (heap_get _ _ _ _ Ha L) as (c & -> & Q); destruct c; try (cbn in Q; contradiction).
    destruct Q as (ps' & ms' & f & d' & s' & A & B & D & F & G & J). rewrite H1 in A; injection A as <- <-.
    assert (TL : tag < length ms) by (apply nth_error_Some; congruence).
    destruct (find_case _ _ (H2 _ TL)) as (c & FC & IC & TC). rewrite FC. destruct c as [[tag' xs] body]. cbn in TC; subst tag'.
    rewrite Forall_forall in H3. specialize (H3 _ IC). inversion H3 as [C' ret' ps' ts' ms' tag' xs' body' f' d'' us B1 B2 B3 B4 B5 B6]; subst.
    assert (f' = f) by congruence; subst f'. assert (d'' = d') by congruence; subst d''.
    assert (V : Forall2 (vt S1) vs (map (at_types s) (map snd (combine xs us)))).
    { rewrite (proj2 (combine_vars _ _ B4)), (args_same s _ _ _ B5). erewrite map_ext_in; [exact G|]. intros t I; cbn.
      apply at_ext; intros p Mp. apply with_at; eauto. }
    destruct (vars_ok _ _ _ _ _ Ha V) as (h2 & r2 & S2 & N & Mb & Hb & Rb). rewrite (proj1 (combine_vars _ _ B4)) in N.
    rewrite N; cbn [or_wrong]. eapply good_more; eauto. eapply good_impl; [eapply (inner_safe n X); eauto using more_env, more_trans|].
    + apply Forall2_app; [exact Rb|]. eapply more_env; [|exact R]; eauto using more_trans.
    + cbn. intros S3 [r3|w] Mc; cbn; auto. intros [A0 B0]; split; auto. intros Z; inversion Z; subst.
      match goal with U : Forall _ cases |- _ => rewrite Forall_forall in U; specialize (U _ IC) end. contradiction.
Qed.

Theorem safe : forall n, safe_eval n /\ safe_exec n /\ safe_call n.
Proof.
  induction n as [|n (A & B & C)].
  - repeat split; repeat intro; exact I.
  - repeat split; [apply eval_step|apply exec_step|apply call_step]; auto.
Qed.

(** A call from outside: values in, no value used as what it is not, a value of the declared
    type out. *)
Lemma plain_back : forall S s v t, plain_type t -> vt S v (at_types s t) -> plain_val v t.
Proof. intros S s v t B V; destruct t; cbn in *; try contradiction; inversion V; subst; exact I. Qed.
Theorem safe_from_outside : forall k f d vs, nth_error (p_funs P) f = Some d -> Forall2 plain_val vs (map snd (f_params d)) ->
  match call M P bodies k [] (VFun f) vs with
  | Wrong => False
  | Fine (v, _) => plain_type (f_ret d) -> plain_val v (f_ret d)
  | _ => True
  end.
Proof.
  intros k f d vs N V. destruct (safe k) as (_ & _ & C). pose (s := fun _ : nat => SInt).
  specialize (C [] [] (VFun f) vs (map (at_types s) (map snd (f_params d))) (at_types s (f_ret d))).
  assert (H : good [] (call M P bodies k [] (VFun f) vs) (fun S' v => vt S' v (at_types s (f_ret d)))).
  { apply C; [constructor|constructor; auto|]. clear - V. induction V; cbn; constructor; auto using plain_vt. }
  destruct (call M P bodies k [] (VFun f) vs) as [[v h]| | |]; auto. destruct H as (S' & _ & _ & H). eauto using plain_back.
Qed.
End Safe.
