(** GC maps: functions and programs, and how the maps are read back. *)
From Coq Require Import ZArith List Bool String Lia.
From Verif Require Import X86 GenModel GenStatic GenSpec GenSlots RootSpec RootExpr RootStmt.
Import ListNotations.
Open Scope Z_scope.
Ltac Zify.zify_post_hook ::= Z.div_mod_to_equations.
Local Arguments Z.mul : simpl never. Local Arguments Z.add : simpl never. Local Arguments Z.sub : simpl never.
Local Arguments Z.of_nat : simpl never.

(* ------------------------------------------------------------------------ parameters *)

Fixpoint param_roots (i : Z) (ps : list (nat * ty)) : list (Z * ty) :=
  match ps with [] => [] | (_, t) :: r => as_root (8 * (i + 1)) t ++ param_roots (i + 1) r end.
Lemma gen_params_does ps : forall i s c s', gen_params i ps s = Some (c, s') ->
  forallb plain c = true /\ core s' = core s /\ g_roots s' = g_roots s ++ param_roots (Z.of_nat i) ps /\ g_sp s' = g_sp s.
Proof.
  induction ps as [|[x t] ps IH]; intros i s c s' H; cbn [gen_params] in H.
  - ginv H. cbn [param_roots]. rewrite app_nil_r. auto.
  - apply seq_inv in H as (c1 & s1 & c2 & H1 & H & ->). ginv1 H1. subst.
    apply seq_inv in H as (c3 & s3 & c4 & H3 & H & ->). pose proof (add_root_inv _ _ _ _ _ H3) as (_ & Es & _).
    apply add_root_does in H3 as (-> & R1 & R2 & R3).
    apply IH in H as (I1 & I2 & I3 & I4). split; [exact I1|]. split; [congruence|]. split; [|congruence].
    rewrite I3, R1. cbn [param_roots]. rewrite <- app_assoc. do 3 f_equal. lia.
Qed.
Lemma param_roots_low ps : forall i, low (i + Z.of_nat (List.length ps)) (param_roots i ps).
Proof.
  induction ps as [|[x t] ps IH]; intros i; cbn [param_roots]; [constructor|]. apply Forall_app. split.
  - unfold as_root. destruct (is_pointer t); repeat constructor. cbn [fst List.length]. lia.
  - eapply low_weaken; [|apply IH]. cbn [List.length]. lia.
Qed.
Lemma param_roots_rooted ps : forall i (slot : nat -> Z), 0 <= i -> NoDup (map fst ps) ->
  (forall x, In x (map fst ps) -> slot x = get_slot (param_slots i ps) x) ->
  rooted slot (param_roots i ps) ps.
Proof.
  induction ps as [|[x t] ps IH]; intros i slot Hi Hn Hs o; cbn [param_roots].
  - split; [intros (u & [])|intros (y & u & [] & _)].
  - cbn [map fst] in Hn. apply NoDup_cons_iff in Hn as [Hn1 Hn2].
    assert (Hx : slot x = 8 * (i + 1)).
    { rewrite Hs by now left. cbn [param_slots get_slot]. now rewrite Nat.eqb_refl. }
    assert (IH' : rooted slot (param_roots (i + 1) ps) ps).
    { apply IH; [lia|exact Hn2|]. intros y Hy. rewrite Hs by now right. cbn [param_slots get_slot].
      destruct (Nat.eqb y x) eqn:E; [|reflexivity]. apply Nat.eqb_eq in E. subst. contradiction. }
    split.
    + intros (u & Hu). apply in_app_or in Hu as [Hu|Hu].
      * unfold as_root in Hu. destruct (is_pointer t) eqn:E; [|destruct Hu]. destruct Hu as [Hu|[]]. injection Hu as <- <-.
        exists x, t. split; [now left|]. split; [exact E|]. now rewrite Hx.
      * destruct (proj1 (IH' o)) as (y & v & V1 & V2); [eauto|]. exists y, v. split; [now right|exact V2].
    + intros (y & v & [V1|V1] & V2 & V3).
      * injection V1 as <- <-. exists t. apply in_or_app. left. unfold as_root. rewrite V2, V3, Hx. now left.
      * destruct (proj2 (IH' o)) as (u & Hu); [eauto|]. exists u. apply in_or_app. now right.
Qed.

(* ------------------------------------------------------------------------- functions *)

Definition fn_slot (f : fundef) : nat -> Z := get_slot (snd (fn_slots f)).
Definition fn_frame (f : fundef) : Z := round_temps (fst (fn_slots f)).
Definition fn_maps (f : fundef) : list (list (Z * ty)) :=
  let R := param_roots 0 (f_params f) in
  match f_body f with
  | BBlock l => list_maps (fn_slot f) R l
  | BExpr e => repeat R (calls e)
  | BCons _ _ _ => [R]
  end.
Lemma round_ge t : t <= round_temps t.
Proof. unfold round_temps. destruct (t mod 2 =? 0); lia. Qed.
Lemma fn_slot_bound f x : fn_slot f x <= 8 * fn_frame f /\ fn_slot f x mod 8 = 0.
Proof.
  unfold fn_slot, fn_frame. pose proof (fn_slots_ok f) as H. destruct (fn_slots f) as [t l]. cbn [fst snd].
  destruct H as (H1 & H2 & (H3 & _) & _). pose proof (round_ge t).
  destruct (Z.eq_dec (get_slot l x) 0) as [E|E]; [rewrite E; split; [lia|reflexivity]|].
  apply get_slot_in in E. apply H3 in E. lia.
Qed.
Lemma fn_params_low f : low (fn_frame f) (param_roots 0 (f_params f)).
Proof.
  eapply low_weaken; [|apply param_roots_low]. unfold fn_frame. pose proof (fn_slots_ok f) as H. destruct (fn_slots f) as [t l].
  cbn [fst]. pose proof (round_ge t). lia.
Qed.
Lemma fn_params_rooted f : NoDup (map fst (f_params f)) -> rooted (fn_slot f) (param_roots 0 (f_params f)) (f_params f).
Proof.
  intros Hn. apply param_roots_rooted; [lia|exact Hn|]. intros x Hx. unfold fn_slot. pose proof (fn_slots_ok f) as H.
  destruct (fn_slots f) as [t l]. apply H. exact Hx.
Qed.

Definition map_data (maps : list (nat * list (Z * ty))) : list event :=
  flat_map (fun m => gc_map_data (LMap (fst m)) (map (fun r => fst r / 8) (snd m))) maps.

Lemma gen_fields_plain n : forall i off s c s', gen_fields i off n s = Some (c, s') -> forallb plain c = true /\ s' = s.
Proof.
  induction n as [|n IH]; intros i off s c s' H; cbn [gen_fields] in H.
  - ginv H. auto.
  - apply seq_inv in H as (c1 & s1 & c2 & H1 & H & ->). ginv1 H1. subst.
    apply seq_inv in H as (c3 & s3 & c4 & H3 & H & ->). ginv1 H3. subst.
    apply IH in H as [I1 ->]. auto.
Qed.
Lemma gen_exit_plain x s c s' : gen_exit x s = Some (c, s') -> forallb plain c = true /\ s' = s.
Proof. intros H. apply gen_exit_inv in H as [-> ->]. destruct x; auto. Qed.

Lemma constructor_tells fr alloc n tag id descr s c s' : low fr (g_roots s) ->
  gen_constructor alloc n tag id descr s = Some (c, s') -> tells fr [g_roots s] (core s) c (core s').
Proof.
  intros Hl H. unfold gen_constructor in H.
  apply seq_inv in H as (c1 & s1 & c2 & H1 & H & ->). ginv1 H1. subst.
  apply seq_inv in H as (c3 & s3 & c4 & H3 & H & ->). ginv1 H3. subst. destruct SL as (_ & _ & _ & _ & E1 & _ & E2 & E3 & _).
  match type of H with seq _ _ ?t = _ => rename t into sa end.
  assert (Ec : core sa = core s) by (unfold core; congruence).
  apply seq_inv in H as (c5 & s5 & c6 & H5 & H & ->). ginv1 H5. subst.
  apply seq_inv in H as (c7 & s7 & c8 & H7 & H & ->). ginv1 H7. subst.
  apply seq_inv in H as (c9 & s9 & c10 & H9 & H & ->).
  apply (gc_map_does (fun _ => 0) fr) in H9 as (T & _). rewrite E1, Ec, in_frame_low in T by exact Hl.
  apply seq_inv in H as (c11 & s11 & c12 & H11 & H & ->).
  assert (P11 : forallb plain c11 = true /\ s11 = s9).
  { destruct tag as [t|].
    - apply seq_inv in H11 as (c13 & s13 & c14 & H13 & H11 & ->). ginv1 H13. subst. apply gen_fields_plain in H11 as [I1 ->]. auto.
    - now apply gen_fields_plain in H11. }
  destruct P11 as [P11 ->]. apply gen_exit_plain in H as [P12 ->].
  eapply tells_eq.
  - eapply tells_app; [apply tells_plain; reflexivity|]. eapply tells_app; [apply tells_plain; reflexivity|].
    eapply tells_app; [apply tells_plain; reflexivity|]. eapply tells_app; [apply tells_plain; reflexivity|].
    eapply tells_app; [exact T|]. eapply tells_app; apply tells_plain; eassumption.
  - reflexivity.
Qed.

Lemma fn_tells alloc f s c s' : gen_fn alloc f s = Some (c, s') ->
  exists c0, c = c0 ++ EFlush :: EData :: map_data (g_maps s') /\
  some_tells (fn_frame f) (g_id s, []) c0 (core s') /\
  (shallow_list (body_list (f_body f)) -> tells (fn_frame f) (fn_maps f) (g_id s, []) c0 (core s')).
Proof.
  intros H. unfold gen_fn in H. pose proof (fn_slot_bound f) as Hb. pose proof (fn_params_low f) as Hl.
  unfold fn_maps. unfold fn_slot, fn_frame in *. destruct (fn_slots f) as [temps slots]. cbn [fst snd] in *.
  set (fr := round_temps temps) in *. set (slot := get_slot slots) in *.
  apply seq_inv in H as (c1 & s1 & c2 & H1 & H & ->). unfold reset_fn in H1. ginv1 H1. subst.
  apply seq_inv in H as (c3 & s3 & c4 & H3 & H & ->). unfold gen_entry in H3. ginv1 H3. subst.
  apply seq_inv in H as (c5 & s5 & c6 & H5 & H & ->). ginv1 H5. subst.
  apply seq_inv in H as (c7 & s7 & c8 & H7 & H & ->). apply gen_params_does in H7 as (P1 & P2 & P3 & P4).
  cbn [g_roots g_sp set_sp app] in P3, P4. change (Z.of_nat 0) with 0 in P3.
  set (R := param_roots 0 (f_params f)) in *.
  apply seq_inv in H as (c9 & s9 & c10 & H9 & H & ->).
  unfold gen_maps in H. injection H as <- <-.
  assert (Hs : sinv fr s7) by (split; [lia|now rewrite P3]).
  assert (L : some_tells fr (core s7) c9 (core s9) /\
    (shallow_list (body_list (f_body f)) -> tells fr match f_body f with
     | BBlock l => list_maps slot R l | BExpr e => repeat R (calls e) | BCons _ _ _ => [R] end (core s7) c9 (core s9))).
  { destruct (f_body f) as [l|e|tag id descr].
    - apply seq_inv in H9 as (c11 & s11 & c12 & H11 & H9 & ->).
      assert (P12 : forallb plain c12 = true /\ s9 = s11).
      { destruct (_ && _) in H9; [now apply gen_exit_plain in H9|]. ginv H9. auto. }
      destruct P12 as [P12 ->]. unfold gen_block in H11.
      apply seq_inv in H11 as (c13 & s13 & c14 & H13 & H11 & ->). unfold open_scope in H13. injection H13 as <- <-.
      apply seq_inv in H11 as (c15 & s15 & c16 & H15 & H11 & ->).
      assert (P16 : c16 = [] /\ core s11 = core s15).
      { unfold close_scope in H11. destruct (g_scopes s15); [discriminate|]. injection H11 as <- <-. auto. }
      destruct P16 as [-> P16].
      assert (Hs' : sinv fr (set_scopes (cons (List.length (g_roots s7))) s7)) by exact Hs.
      split.
      { apply (list_some slot (f_extret f) fr l) in H15 as (T & _); [|apply Forall_forall; intros st _; apply gen_stmt_some; apply Hb|exact Hs'].
        rewrite P16. eapply some_app; [|apply some_plain; exact P12]. cbn [app]. rewrite app_nil_r. exact T. }
      intros Hsh.
      apply (list_tells slot (f_extret f) fr (fun x => proj1 (Hb x)) l) in H15 as (T & _);
        [|apply gen_all_tell; intros x; apply Hb|exact Hsh|exact Hs'].
      cbn [g_roots set_scopes] in T. rewrite P3 in T. rewrite P16. eapply tells_eq.
      + eapply tells_app; [|apply tells_plain; exact P12]. eapply tells_app; [apply tells_nil|]. eapply tells_app; [exact T|apply tells_nil].
      + cbn [app]. now rewrite !app_nil_r.
    - unfold gen_return in H9. apply seq_inv in H9 as (c11 & s11 & c12 & H11 & H9 & ->). apply gen_exit_plain in H9 as [P12 ->].
      apply (expr_at slot fr) in H11 as (T & _); [|exact Hs]. rewrite P3 in T.
      assert (T' : tells fr (repeat R (calls e)) (core s7) (c11 ++ c12) (core s11)).
      { eapply tells_eq; [eapply tells_app; [exact T|apply tells_plain; exact P12]|apply app_nil_r]. }
      split; [eexists; exact T'|auto].
    - apply (constructor_tells fr) in H9; [|now rewrite P3]. rewrite P3 in H9. split; [eexists; exact H9|auto]. }
  destruct L as [L1 L2].
  cbn [app]. eexists (_ :: _ :: c7 ++ c9). split; [cbn [app]; rewrite <- app_assoc; reflexivity|].
  split; [do 2 (apply some_cons; [reflexivity|]); eapply some_app; [|exact L1]; rewrite P2; apply some_plain; exact P1|].
  intros Hsh. do 2 (apply tells_cons; [reflexivity|]). eapply tells_eq.
  - eapply tells_app; [|apply L2; exact Hsh]. rewrite P2. apply tells_plain. exact P1.
  - reflexivity.
Qed.

(* -------------------------------------------------------------------------- reading *)

Lemma at_label_app c0 : forall d i, forallb unlabelled c0 = true -> at_label (c0 ++ d) i = at_label d i.
Proof.
  induction c0 as [|e c0 IH]; intros d i H; [reflexivity|]. cbn in H. apply andb_true_iff in H as [H1 H2].
  cbn [app at_label]. destruct e; auto. destruct l; auto. discriminate.
Qed.
Lemma words_of offs d : words_at (map tagged_word offs ++ EFlush :: d) = map (fun z => 2 * z + 1) offs.
Proof. induction offs as [|z offs IH]; [reflexivity|]. cbn [map app]. unfold tagged_word at 1. cbn [words_at]. now rewrite IH. Qed.
Lemma read_data maps : forall i m d, find_map maps i = Some m ->
  exists d', at_label (map_data maps ++ d) i =
    Some (tagged_word (Z.of_nat (List.length m)) :: map tagged_word (map (fun r => fst r / 8) m) ++ EFlush :: d').
Proof.
  induction maps as [|[j m0] maps IH]; intros i m d H; [discriminate|]. cbn [find_map] in H.
  unfold map_data. cbn [flat_map]. fold (map_data maps). unfold gc_map_data. cbn [fst snd app].
  cbn [at_label]. destruct (Nat.eqb i j).
  - injection H as ->. exists (map_data maps ++ d). do 2 f_equal; [now rewrite map_length|].
    rewrite <- !app_assoc. reflexivity.
  - rewrite <- !app_assoc. destruct (IH i m d H) as [d' Hd]. exists d'. rewrite <- Hd.
    generalize (map (fun r => fst r / 8) m0) as offs. intros offs.
    change (tagged_word (Z.of_nat (List.length offs)) :: map tagged_word offs ++ [EFlush] ++ map_data maps ++ d)
      with ((tagged_word (Z.of_nat (List.length offs)) :: map tagged_word offs) ++ [EFlush] ++ map_data maps ++ d).
    rewrite at_label_app; [reflexivity|]. cbn [forallb unlabelled tagged_word].
    clear. induction offs; [reflexivity|exact IHoffs].
Qed.
Lemma read_map_data c0 maps i m d : forallb unlabelled c0 = true -> find_map maps i = Some m ->
  read_map (c0 ++ map_data maps ++ d) i = Some (map (fun r => fst r / 8) m).
Proof.
  intros Hc Hm. unfold read_map. rewrite at_label_app by exact Hc.
  destruct (read_data maps i m d Hm) as [d' ->]. cbn [option_map]. unfold tagged_word at 1. cbn [words_at].
  rewrite words_of. f_equal.
  replace (Z.to_nat ((2 * Z.of_nat (List.length m) + 1) / 2)) with (List.length (map (fun z => 2 * z + 1) (map (fun r : Z * ty => fst r / 8) m)))
    by (rewrite !map_length; lia).
  rewrite firstn_all, map_map. rewrite <- (map_id (map (fun r : Z * ty => fst r / 8) m)) at 2. apply map_ext. intros z. lia.
Qed.

(** Labels of a function's maps. *)
Definition labels_within (a b : nat) (c : list event) : Prop := forall i, In (ELabel (LMap i)) c -> (a <= i < b)%nat.
Lemma unlabelled_in c i : forallb unlabelled c = true -> ~ In (ELabel (LMap i)) c.
Proof. intros H Hi. rewrite forallb_forall in H. apply H in Hi. discriminate. Qed.
Lemma map_data_labels maps i : In (ELabel (LMap i)) (map_data maps) -> In i (map fst maps).
Proof.
  unfold map_data. intros H. apply in_flat_map in H as ([j m] & Hj & H). cbn [fst snd] in H. unfold gc_map_data in H.
  destruct H as [H|[H|H]]; [injection H as ->; now apply (in_map fst) in Hj|discriminate|].
  apply in_app_or in H as [H|[H|[]]]; [|discriminate]. apply in_map_iff in H as (z & Hz & _). discriminate.
Qed.
Lemma at_label_none c i : ~ In (ELabel (LMap i)) c -> forall d, at_label (c ++ d) i = at_label d i.
Proof.
  induction c as [|e c IH]; intros H d; [reflexivity|]. cbn [app at_label].
  assert (H' : ~ In (ELabel (LMap i)) c) by (intros Hi; apply H; now right). specialize (IH H' d).
  destruct e; auto. destruct l; auto. destruct (Nat.eqb i n) eqn:E; [|exact IH].
  apply Nat.eqb_eq in E. subst. elim H. now left.
Qed.

Lemma fn_labels alloc f s c s' : gen_fn alloc f s = Some (c, s') ->
  (g_id s <= g_id s')%nat /\ labels_within (g_id s) (g_id s') c.
Proof.
  intros H. apply fn_tells in H as (c0 & -> & (Ms & (T1 & _) & _ & T3 & T4) & _). split; [exact T1|].
  intros i Hi. apply in_app_or in Hi as [Hi|Hi].
  - now apply unlabelled_in in Hi.
  - destruct Hi as [Hi|[Hi|Hi]]; try discriminate. apply map_data_labels in Hi. apply T4 in Hi as [[]|Hi]. exact Hi.
Qed.

(** The code of a program is that of its functions, each with its maps' numbers. *)
Lemma fns_split alloc fs : forall s c s', gen_fns alloc fs s = Some (c, s') ->
  (g_id s <= g_id s')%nat /\ labels_within (g_id s) (g_id s') c /\
  forall f, In f fs -> exists c1 cf c2 s1 s2, c = c1 ++ cf ++ c2 /\ gen_fn alloc f s1 = Some (cf, s2) /\
    (g_id s <= g_id s1)%nat /\ labels_within (g_id s) (g_id s1) c1.
Proof.
  induction fs as [|f fs IH]; intros s c s' H; cbn [gen_fns] in H.
  - ginv H. split; [lia|]. split; [intros i []|]. intros f [].
  - apply seq_inv in H as (c1 & s1 & c2 & H1 & H & ->). pose proof (fn_labels _ _ _ _ _ H1) as (L1 & L2).
    apply IH in H as (I1 & I2 & I3). split; [lia|]. split.
    { intros i Hi. apply in_app_or in Hi as [Hi|Hi]; [apply L2 in Hi; lia|apply I2 in Hi; lia]. }
    intros g [<-|Hg].
    + exists [], c1, c2, s, s1. split; [reflexivity|]. split; [exact H1|]. split; [lia|]. intros i [].
    + destruct (I3 g Hg) as (d1 & cf & d2 & t1 & t2 & -> & J1 & J2 & J3).
      exists (c1 ++ d1), cf, d2, t1, t2. split; [now rewrite <- !app_assoc|]. split; [exact J1|]. split; [lia|].
      intros i Hi. apply in_app_or in Hi as [Hi|Hi]; [apply L2 in Hi; lia|apply J3 in Hi; lia].
Qed.

(* --------------------------------------------------------------------- the property *)

Lemma call_maps_of c maps cf : (forall i m, find_map maps i = Some m -> read_map c i = Some (map (fun r => fst r / 8) m)) ->
  forall n m, nth_error (maps_in cf maps) n = Some (Some m) ->
  nth_error (call_maps c cf) n = Some (Some (map (fun r => fst r / 8) m)).
Proof.
  intros H. induction cf as [|e cf IH]; intros n m Hn; [destruct n; discriminate|].
  unfold maps_in, call_maps in *. cbn [flat_map] in *. unfold map_at at 1 in Hn.
  destruct e; cbn [app] in *; try (now apply IH). destruct l; cbn [app] in *; try (now apply IH).
  - destruct n as [|n]; cbn [nth_error] in *; [|now apply IH]. injection Hn as <-. reflexivity.
  - destruct n as [|n]; cbn [nth_error] in *; [|now apply IH]. injection Hn as Hn. f_equal. apply H. exact Hn.
Qed.

Lemma reached_maps f n A : NoDup (map fst (f_params f)) -> declared_list (map fst (f_params f)) (body_list (f_body f)) ->
  reaches f n A -> exists M, nth_error (fn_maps f) n = Some M /\ rooted (fn_slot f) M A.
Proof.
  intros Hn Hd Hr. pose proof (fn_params_rooted f Hn) as HR. unfold reaches, fn_maps in *.
  destruct (f_body f) as [l|e|tag id descr]; cbn [body_list] in Hd.
  - destruct Hr as (tr & r & H & Hin). destruct (runs_traced (fn_slot f) (fn_frame f) (fun x => proj1 (fn_slot_bound f x))) as (_ & RT & _).
    apply (RT _ _ _ _ _ H _ HR Hd) in Hin as (_ & m & M1 & M2). rewrite Nat.sub_0_r in M1. eauto.
  - destruct Hr as [Hr ->]. eexists. split; [apply nth_error_repeat; exact Hr|exact HR].
  - destruct Hr as [-> ->]. eexists. split; [reflexivity|exact HR].
Qed.

Theorem program_maps alloc fs s c s' : gen_fns alloc fs s = Some (c, s') -> forall f, In f fs ->
  NoDup (map fst (f_params f)) -> shallow_list (body_list (f_body f)) ->
  declared_list (map fst (f_params f)) (body_list (f_body f)) ->
  exists c1 cf c2 s1 s2, c = c1 ++ cf ++ c2 /\ gen_fn alloc f s1 = Some (cf, s2) /\
  forall n A, reaches f n A -> exists m, nth_error (call_maps c cf) n = Some (Some m) /\
    forall k, k <= fn_frame f ->
      (In k m <-> exists x t, In (x, t) A /\ object t = true /\ fn_slot f x = 8 * k).
Proof.
  intros H f Hf Hn Hsh Hd. apply fns_split in H as (_ & _ & H).
  destruct (H f Hf) as (c1 & cf & c2 & s1 & s2 & -> & G & Hid & Hlab). exists c1, cf, c2, s1, s2.
  split; [reflexivity|]. split; [exact G|]. intros n A Hr.
  apply fn_tells in G as (c0 & -> & _ & T). destruct (T Hsh) as (T1 & T2 & T3 & T4).
  specialize (T2 (core s2) (ext_refl _)). cbn [snd core] in T2.
  destruct (reached_maps f n A Hn Hd Hr) as (M & M1 & M2).
  assert (N : nth_error (map (option_map (in_frame (fn_frame f))) (maps_in c0 (g_maps s2))) n = Some (Some M)).
  { rewrite T2. now apply map_nth_error. }
  destruct (nth_error (maps_in c0 (g_maps s2)) n) as [om|] eqn:En.
  2: { apply nth_error_None in En. assert (n < List.length (map (option_map (in_frame (fn_frame f))) (maps_in c0 (g_maps s2))))%nat
         by (apply nth_error_Some; now rewrite N). rewrite map_length in H0. lia. }
  rewrite (map_nth_error _ _ _ En) in N. destruct om as [m|]; [|discriminate]. injection N as N.
  exists (map (fun r => fst r / 8) m).
  assert (Hread : forall i m', find_map (g_maps s2) i = Some m' ->
    read_map (c1 ++ (c0 ++ EFlush :: EData :: map_data (g_maps s2)) ++ c2) i = Some (map (fun r => fst r / 8) m')).
  { intros i m' Hm'. unfold read_map. rewrite at_label_none.
    - change (match option_map words_at (at_label ((c0 ++ EFlush :: EData :: map_data (g_maps s2)) ++ c2) i) with
              | Some (n0 :: ws) => Some (map (fun w => w / 2) (firstn (Z.to_nat (n0 / 2)) ws)) | _ => None end)
        with (read_map ((c0 ++ EFlush :: EData :: map_data (g_maps s2)) ++ c2) i).
      replace ((c0 ++ EFlush :: EData :: map_data (g_maps s2)) ++ c2) with ((c0 ++ [EFlush; EData]) ++ map_data (g_maps s2) ++ c2)
        by (rewrite <- !app_assoc; reflexivity).
      apply read_map_data; [|exact Hm']. rewrite forallb_app, T3. reflexivity.
    - intros Hi. apply Hlab in Hi.
      assert (Hk : In i (map fst (g_maps s2))).
      { clear - Hm'. induction (g_maps s2) as [|[j x] l IH]; [discriminate|]. cbn [find_map] in Hm'.
        destruct (Nat.eqb i j) eqn:E; [apply Nat.eqb_eq in E; now left|right; auto]. }
      apply T4 in Hk as [[]|Hk]. cbn [fst core] in Hk. lia. }
  split.
  - pose proof (call_maps_of _ (g_maps s2) c0 Hread n m En) as Hc.
    unfold call_maps in *. rewrite flat_map_app, nth_error_app1; [exact Hc|]. apply nth_error_Some. now rewrite Hc.
  - intros k Hk. split.
    + intros Hin. apply in_map_iff in Hin as ([o t] & Ho & Hin). cbn [fst] in Ho.
      assert (Hin' : In (o, t) M). { rewrite <- N. apply filter_In. split; [exact Hin|]. cbn [fst]. lia. }
      destruct (proj1 (M2 o)) as (x & u & X1 & X2 & X3); [eauto|]. exists x, u. split; [exact X1|]. split; [now rewrite object_pointer|].
      pose proof (fn_slot_bound f x). lia.
    + intros (x & u & X1 & X2 & X3). rewrite object_pointer in X2. destruct (proj2 (M2 (8 * k))) as (v & Hv); [eauto 6|].
      rewrite <- N in Hv. apply filter_In in Hv as [Hv _]. apply in_map_iff. exists (8 * k, v). split; [cbn [fst]; lia|exact Hv].
Qed.
