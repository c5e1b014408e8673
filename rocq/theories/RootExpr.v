(** GC maps: what expressions do to the roots, and the maps at their calls. *)
From Coq Require Import ZArith List Bool String Lia.
From Verif Require Import X86 GenModel GenStatic RootSpec.
Import ListNotations.
Open Scope Z_scope.
Ltac Zify.zify_post_hook ::= Z.div_mod_to_equations.
Local Arguments Z.mul : simpl never. Local Arguments Z.add : simpl never. Local Arguments Z.sub : simpl never.
Local Arguments Z.of_nat : simpl never.

(* ------------------------------------------------------------------ the maps made *)

Notation root := (Z * ty)%type (only parsing).
(** The maps at the calls of a piece of code. *)
Fixpoint find_map (maps : list (nat * list root)) (i : nat) : option (list root) :=
  match maps with [] => None | (j, m) :: r => if Nat.eqb i j then Some m else find_map r i end.
Definition map_at (maps : list (nat * list root)) (e : event) : list (option (list root)) :=
  match e with EAddr LNoGc => [Some []] | EAddr (LMap i) => [find_map maps i] | _ => [] end.
Definition maps_in (c : list event) (maps : list (nat * list root)) : list (option (list root)) := flat_map (map_at maps) c.

(** The number of the next map and the maps so far. *)
Definition mst := (nat * list (nat * list root))%type.
Definition core (s : gst) : mst := (g_id s, g_maps s).
Definition ext (a b : mst) : Prop :=
  (fst a <= fst b)%nat /\ forall i, (i < fst a)%nat -> find_map (snd b) i = find_map (snd a) i.
Lemma ext_refl a : ext a a.
Proof. split; auto. Qed.
Lemma ext_trans a b c : ext a b -> ext b c -> ext a c.
Proof. intros [A1 A2] [B1 B2]. split; [lia|]. intros i Hi. rewrite B2 by lia. auto. Qed.

(** What a map says about the frame. *)
Definition in_frame (fr : Z) (l : list root) : list root := filter (fun r => fst r / 8 <=? fr) l.

Definition unlabelled (e : event) : bool := match e with ELabel (LMap _) => false | _ => true end.
(** The code [c], made from [a] to [b], has the maps [Ms]. *)
Definition tells (fr : Z) (Ms : list (list root)) (a : mst) (c : list event) (b : mst) : Prop :=
  ext a b /\ (forall f, ext b f -> map (option_map (in_frame fr)) (maps_in c (snd f)) = map Some Ms) /\
  forallb unlabelled c = true /\
  forall i, In i (map fst (snd b)) -> In i (map fst (snd a)) \/ (fst a <= i < fst b)%nat.

Lemma tells_app fr M1 M2 a b c c1 c2 : tells fr M1 a c1 b -> tells fr M2 b c2 c -> tells fr (M1 ++ M2) a (c1 ++ c2) c.
Proof.
  intros (A1 & A2 & A3 & A4) (B1 & B2 & B3 & B4). split; [eauto using ext_trans|]. split; [|split].
  - intros f Hf. unfold maps_in. rewrite flat_map_app, !map_app.
    f_equal; [apply A2|apply B2]; eauto using ext_trans.
  - now rewrite forallb_app, A3, B3.
  - intros i Hi. destruct A1 as [A1 _], B1 as [B1 _]. apply B4 in Hi as [Hi|Hi]; [apply A4 in Hi as [Hi|Hi]|]; auto; right; lia.
Qed.
Lemma tells_nil fr a : tells fr [] a [] a.
Proof. split; [apply ext_refl|]. split; [reflexivity|]. split; [reflexivity|auto]. Qed.
Definition plain (e : event) : bool :=
  match e with EAddr LNoGc | EAddr (LMap _) | ELabel (LMap _) => false | _ => true end.
Lemma plain_maps e m : plain e = true -> map_at m e = [].
Proof. destruct e; try reflexivity. destruct l; try reflexivity; discriminate. Qed.
Lemma plain_unlabelled e : plain e = true -> unlabelled e = true.
Proof. destruct e; try reflexivity. destruct l; try reflexivity; discriminate. Qed.
Lemma tells_cons fr M a e c b : plain e = true -> tells fr M a c b -> tells fr M a (e :: c) b.
Proof.
  intros Hp (A1 & A2 & A3 & A4). split; [exact A1|]. split; [|split; [|exact A4]].
  - intros f Hf. unfold maps_in. cbn [flat_map]. rewrite plain_maps by exact Hp. apply (A2 f Hf).
  - cbn. now rewrite plain_unlabelled, A3.
Qed.
Lemma tells_plain fr a c : forallb plain c = true -> tells fr [] a c a.
Proof.
  induction c as [|e c IH]; intros H; [apply tells_nil|]. cbn in H. apply andb_true_iff in H as [H1 H2].
  apply tells_cons; auto.
Qed.
Lemma tells_eq fr M M' a c b : tells fr M a c b -> M = M' -> tells fr M' a c b.
Proof. now intros H <-. Qed.

(* ------------------------------------------------------------------------- spilling *)

Definition low (sp : Z) (l : list root) : Prop := Forall (fun r => fst r <= 8 * sp) l.
Lemma low_weaken a b l : a <= b -> low a l -> low b l.
Proof. intros H. apply Forall_impl. intros r. lia. Qed.

Definition as_root (off : Z) (t : ty) : list root := if is_pointer t then [(off, t)] else [].
Fixpoint spilled (sp : Z) (ts : list ty) : list root :=
  match ts with
  | [] => []
  | t :: r => spilled sp r ++ as_root (8 * (sp + Z.of_nat (List.length ts))) t
  end.
Lemma spilled_low ts : forall sp, low (sp + Z.of_nat (List.length ts)) (spilled sp ts).
Proof.
  induction ts as [|t ts IH]; intros sp; cbn [spilled]; [constructor|]. apply Forall_app. split.
  - eapply low_weaken; [|apply IH]. cbn [List.length]. lia.
  - unfold as_root. destruct (is_pointer t); repeat constructor. cbn [fst]. lia.
Qed.
Lemma spilled_high ts : forall sp, Forall (fun r : root => 8 * sp + 8 <= fst r) (spilled sp ts).
Proof.
  induction ts as [|t ts IH]; intros sp; cbn [spilled]; [constructor|]. apply Forall_app. split; [apply IH|].
  unfold as_root. destruct (is_pointer t); repeat constructor. cbn [fst]. cbn [List.length]. lia.
Qed.

Lemma in_frame_app fr l1 l2 : in_frame fr (l1 ++ l2) = in_frame fr l1 ++ in_frame fr l2.
Proof. apply filter_app. Qed.
Lemma in_frame_low fr l : low fr l -> in_frame fr l = l.
Proof.
  induction 1 as [|r l Hr _ IH]; [reflexivity|]. cbn. destruct (fst r / 8 <=? fr) eqn:E; [|lia]. f_equal. exact IH.
Qed.
Lemma in_frame_high fr l : Forall (fun r : root => 8 * fr + 8 <= fst r) l -> in_frame fr l = [].
Proof. induction 1 as [|r l Hr _ IH]; [reflexivity|]. cbn. destruct (fst r / 8 <=? fr) eqn:E; [lia|]. exact IH. Qed.
Lemma in_frame_spilled fr sp R ts : fr <= sp -> in_frame fr (R ++ spilled sp ts) = in_frame fr R.
Proof.
  intros H. rewrite in_frame_app, (in_frame_high fr (spilled sp ts)), app_nil_r; [reflexivity|].
  eapply Forall_impl; [|apply spilled_high]. cbn. intros. lia.
Qed.

Lemma add_root_does off t s c s' : add_root off t s = Some (c, s') ->
  c = [] /\ g_roots s' = g_roots s ++ as_root off t /\ g_scopes s' = g_scopes s /\ core s' = core s.
Proof.
  unfold add_root, as_root. destruct (is_pointer t); intros H; ginv H; rewrite ?app_nil_r; auto.
Qed.
Lemma spill_does ts : forall i s c s', spill i ts s = Some (c, s') ->
  g_roots s' = g_roots s ++ spilled (g_sp s) ts /\ g_scopes s' = g_scopes s /\ core s' = core s.
Proof.
  induction ts as [|t ts IH]; intros i s c s' H; cbn [spill] in H.
  - ginv H. rewrite app_nil_r. auto.
  - apply seq_inv in H as (c1 & s1 & c2 & H1 & H & ->). pose proof (spill_inv _ _ _ _ _ H1) as (_ & _ & Esp & _).
    apply IH in H1 as (I1 & I2 & I3).
    apply seq_inv in H as (c3 & s3 & c4 & H3 & H & ->). ginv1 H3. subst.
    apply seq_inv in H as (c5 & s5 & c6 & H5 & H & ->). ginv1 H5. subst.
    apply add_root_does in H as (-> & E1 & E2 & E3).
    change (g_roots (set_sp (fun sp => sp + 1) s1)) with (g_roots s1) in E1.
    change (g_sp (set_sp (fun sp => sp + 1) s1)) with (g_sp s1 + 1) in E1.
    rewrite E1, I1. cbn [spilled List.length]. split; [|split; [now rewrite E2|now rewrite E3]].
    rewrite <- app_assoc. do 2 f_equal. f_equal. lia.
Qed.

Definition same_root (off : Z) (t : ty) (r : root) : bool :=
  (fst r =? off) && kind_eqb (ty_kind (snd r)) (ty_kind t) && Nat.eqb (ty_id (snd r)) (ty_id t).
Lemma drop_last off t l : Forall (fun r : root => fst r < off) l -> drop_root off t (l ++ [(off, t)]) = Some l.
Proof.
  induction 1 as [|[o u] l Hr _ IH]; cbn [app drop_root].
  - assert (K : kind_eqb (ty_kind t) (ty_kind t) = true) by (destruct (ty_kind t); reflexivity).
    rewrite Z.eqb_refl, K, Nat.eqb_refl. reflexivity.
  - cbn [fst] in Hr. destruct (o =? off) eqn:E; [lia|]. cbn [andb]. rewrite IH. reflexivity.
Qed.
Lemma drop_in off t l l' : drop_root off t l = Some l' -> (exists u, In (off, u) l) /\ (forall r, In r l' -> In r l).
Proof.
  revert l'. induction l as [|[o u] l IH]; intros l' H; cbn [drop_root] in H; [discriminate|].
  destruct (o =? off) eqn:E; cbn [andb] in H.
  - destruct (_ && _) in H.
    + injection H as <-. split; [exists u; left; f_equal; lia|]. intros r Hr. now right.
    + destruct (drop_root off t l) as [l1|]; [|discriminate]. injection H as <-.
      destruct (IH l1 eq_refl) as [(v & Hv) I]. split; [exists v; now right|]. intros r [<-|Hr]; [now left|right; auto].
  - destruct (drop_root off t l) as [l1|]; [|discriminate]. injection H as <-.
    destruct (IH l1 eq_refl) as [(v & Hv) I]. split; [exists v; now right|]. intros r [<-|Hr]; [now left|right; auto].
Qed.
Lemma remove_root_does off t s c s' : remove_root off t s = Some (c, s') ->
  g_scopes s' = g_scopes s /\ core s' = core s /\
  (if is_pointer t then drop_root off t (g_roots s) = Some (g_roots s') else g_roots s' = g_roots s).
Proof.
  unfold remove_root. destruct (is_pointer t).
  - destruct (drop_root off t (g_roots s)) as [l|] eqn:E; [|discriminate]. intros H. injection H as <- <-. auto.
  - intros H. injection H as <- <-. auto.
Qed.

Lemma unspill_does ts : forall i s c s' sp R, unspill i ts s = Some (c, s') ->
  g_sp s = sp + Z.of_nat (List.length ts) -> low sp R -> g_roots s = R ++ spilled sp ts ->
  g_roots s' = R /\ g_scopes s' = g_scopes s /\ core s' = core s.
Proof.
  induction ts as [|t ts IH]; intros i s c s' sp R H Hsp Hlow Hr; cbn [unspill] in H.
  - ginv H. cbn in Hr. rewrite app_nil_r in Hr. auto.
  - apply seq_inv in H as (c1 & s1 & c2 & H1 & H & ->). ginv1 H1. subst.
    apply seq_inv in H as (c3 & s3 & c4 & H3 & H & ->).
    pose proof (remove_root_inv _ _ _ _ _ H3) as (_ & Es & _).
    apply remove_root_does in H3 as (E1 & E2 & E3).
    apply seq_inv in H as (c5 & s5 & c6 & H5 & H & ->). ginv1 H5. subst.
    assert (Hr3 : g_roots s3 = R ++ spilled sp ts).
    { revert E3. rewrite Hr. cbn [spilled]. unfold as_root. destruct (is_pointer t).
      - rewrite app_assoc. replace (g_sp s * 8) with (8 * (sp + Z.of_nat (List.length (t :: ts)))) by lia.
        rewrite drop_last; [congruence|]. apply Forall_app. split.
        + eapply Forall_impl; [|exact Hlow]. cbn [List.length]. intros. cbn beta in *. lia.
        + eapply Forall_impl; [|apply (spilled_low ts sp)]. cbn [List.length]. intros. cbn beta in *. lia.
      - rewrite app_nil_r. auto. }
    eapply (IH _ _ _ _ sp R) in H as (I1 & I2 & I3).
    + split; [exact I1|]. cbn in I2. split; [now rewrite I2|]. rewrite I3. exact E2.
    + cbn [g_sp set_sp]. rewrite Es, Hsp. cbn [List.length]. lia.
    + exact Hlow.
    + exact Hr3.
Qed.

(** After a call through an expression the depth is one less than when the registers
    were spilled: the roots are then not found, unless there are none. *)
Lemma unspill_shifted ts : forall i s c s' sp, unspill i ts s = Some (c, s') ->
  g_sp s = sp + Z.of_nat (List.length ts) ->
  (forall o u, In (o, u) (g_roots s) -> 8 * sp < o <= 8 * (sp + Z.of_nat (List.length ts)) ->
     exists k t, nth_error ts (S k) = Some t /\ is_pointer t = true /\ o = 8 * (sp + Z.of_nat (List.length ts) - Z.of_nat k)) ->
  Forall (fun t => is_pointer t = false) ts.
Proof.
  induction ts as [|t ts IH]; intros i s c s' sp H Hsp Hr; [constructor|]. cbn [unspill] in H.
  apply seq_inv in H as (c1 & s1 & c2 & H1 & H & ->). ginv1 H1. subst.
  apply seq_inv in H as (c3 & s3 & c4 & H3 & H & ->).
  pose proof (remove_root_inv _ _ _ _ _ H3) as (_ & Es & _).
  apply remove_root_does in H3 as (_ & _ & E3).
  apply seq_inv in H as (c5 & s5 & c6 & H5 & H & ->). ginv1 H5. subst.
  cbn [List.length] in Hsp, Hr.
  assert (Hts : Forall (fun t => is_pointer t = false) ts).
  { eapply (IH _ _ _ _ sp) in H; [exact H| |].
    - cbn [g_sp set_sp]. rewrite Es, Hsp. lia.
    - intros o u Ho Hb. change (g_roots (set_sp (fun sp0 => sp0 - 1) s3)) with (g_roots s3) in Ho.
      assert (Ho1 : In (o, u) (g_roots s)).
      { destruct (is_pointer t); [|now rewrite <- E3]. apply drop_in in E3 as [_ E3]. auto. }
      destruct (Hr o u Ho1 ltac:(lia)) as (k & t' & K1 & K2 & K3). cbn [nth_error] in K1.
      destruct k as [|k]; [lia|]. exists k, t'. split; [exact K1|]. split; [exact K2|]. lia. }
  constructor; [|exact Hts].
  destruct (is_pointer t) eqn:E; [|reflexivity]. apply drop_in in E3 as [(u & Hu) _].
  destruct (Hr _ _ Hu ltac:(lia)) as (k & t' & K1 & K2 & K3). cbn [nth_error] in K1.
  assert (k = 0)%nat by lia. subst k. apply nth_error_In in K1. rewrite Forall_forall in Hts.
  rewrite (Hts _ K1) in K2. discriminate.
Qed.
Lemma unspill_none ts : forall i s c s', unspill i ts s = Some (c, s') -> Forall (fun t => is_pointer t = false) ts ->
  g_roots s' = g_roots s /\ g_scopes s' = g_scopes s /\ core s' = core s.
Proof.
  induction ts as [|t ts IH]; intros i s c s' H Hp; cbn [unspill] in H; [ginv H; auto|].
  inversion Hp as [|? ? P1 P2]; subst.
  apply seq_inv in H as (c1 & s1 & c2 & H1 & H & ->). ginv1 H1. subst.
  apply seq_inv in H as (c3 & s3 & c4 & H3 & H & ->).
  apply remove_root_does in H3 as (E1 & E2 & E3). rewrite P1 in E3.
  apply seq_inv in H as (c5 & s5 & c6 & H5 & H & ->). ginv1 H5. subst.
  apply IH in H as (I1 & I2 & I3); [|exact P2]. cbn in I1, I2. split; [congruence|]. split; [congruence|].
  rewrite I3. exact E2.
Qed.
Lemma spilled_none ts sp : Forall (fun t => is_pointer t = false) ts -> spilled sp ts = [].
Proof. induction 1 as [|t ts Ht _ IH]; cbn [spilled]; [reflexivity|]. rewrite IH. unfold as_root. now rewrite Ht. Qed.
Lemma spilled_where ts : forall sp o u, In (o, u) (spilled sp ts) ->
  exists k, nth_error ts k = Some u /\ is_pointer u = true /\ o = 8 * (sp + Z.of_nat (List.length ts) - Z.of_nat k).
Proof.
  induction ts as [|t ts IH]; intros sp o u H; [destruct H|]. cbn [spilled] in H. apply in_app_or in H as [H|H].
  - apply IH in H as (k & K1 & K2 & K3). exists (S k). cbn [nth_error List.length]. split; [exact K1|]. split; [exact K2|]. lia.
  - unfold as_root in H. destruct (is_pointer t) eqn:E; [|destruct H]. destruct H as [H|[]]. injection H as <- <-.
    exists 0%nat. split; [reflexivity|]. split; [exact E|]. cbn [List.length]. lia.
Qed.

(* ---------------------------------------------------------------------- expressions *)

Section Expr.
Variable slot : nat -> Z.
Variable fr : Z.

Definition inv (s : gst) : Prop := fr <= g_sp s /\ low (g_sp s) (g_roots s).
(** The roots and scopes are as before. *)
Definition kept (s s' : gst) : Prop := g_roots s' = g_roots s /\ g_scopes s' = g_scopes s.
Definition expr_tells (e : expr) : Prop := forall ta s c s', inv s -> gen_expr slot e ta s = Some (c, s') ->
  tells fr (repeat (in_frame fr (g_roots s)) (calls e)) (core s) c (core s') /\ kept s s'.

Lemma gc_map_does s c s' : gc_map s = Some (c, s') ->
  tells fr [in_frame fr (g_roots s)] (core s) c (core s') /\ kept s s' /\ g_reg s' = g_reg s /\ g_sp s' = g_sp s.
Proof.
  unfold gc_map. destruct (g_roots s) as [|r R] eqn:E; intros H; injection H as <- <-; cbn [core g_id g_maps].
  - split; [|repeat split]. split; [apply ext_refl|]. split; [reflexivity|]. split; [reflexivity|auto].
  - split; [|split; [split; [now rewrite E|reflexivity]|split; reflexivity]]. split; [|split; [|split]].
    + split; [cbn; lia|]. intros i Hi. cbn [fst snd core g_id g_maps] in *. cbn [find_map].
      destruct (Nat.eqb i (g_id s)) eqn:Ei; [apply Nat.eqb_eq in Ei; lia|reflexivity].
    + intros f [_ Hf]. unfold maps_in. cbn [flat_map map_at app map].
      rewrite Hf by (cbn; lia). cbn [snd core g_maps]. cbn [find_map]. now rewrite Nat.eqb_refl.
    + reflexivity.
    + cbn [snd fst core g_id g_maps map]. intros i [<-|Hi]; [right; lia|auto].
Qed.

Lemma repeat_plus {A} (x : A) n m : repeat x (n + m) = repeat x n ++ repeat x m.
Proof. induction n; cbn; [reflexivity|]. now f_equal. Qed.

Lemma plain_spill k : forall i, forallb plain (spill_code i k) = true.
Proof.
  induction k as [|k IH]; intros i; cbn [spill_code]; [reflexivity|]. rewrite forallb_app, IH.
  destruct (nth_error arg_regs i); reflexivity.
Qed.
Lemma plain_unspill k : forall i, forallb plain (unspill_code i k) = true.
Proof.
  induction k as [|k IH]; intros i; cbn [unspill_code]; [reflexivity|]. rewrite forallb_app, IH.
  destruct (nth_error arg_regs i); reflexivity.
Qed.

Lemma pass_arg_does fi i t s c s' : pass_arg fi i t s = Some (c, s') ->
  forallb plain c = true /\ core s' = core s /\ kept s s'.
Proof.
  unfold pass_arg. intros H. apply with_reg_inv in H as (r & N & H).
  apply seq_inv in H as (c1 & s1 & c2 & H1 & H & ->). ginv H1.
  apply seq_inv in H as (c3 & s3 & c4 & H3 & H & ->).
  assert (E : c3 = [] /\ core s3 = core s /\ kept s s3).
  { unfold register_in_use in H3. destruct (g_reg s); [discriminate|]. injection H3 as <- <-. repeat split. }
  destruct E as (-> & E1 & E2).
  assert (F : forallb plain c4 = true /\ s' = s3).
  { destruct (fi_external fi && fi_raw fi).
    - destruct (ty_kind t); ginv1 H; subst; auto.
    - ginv H. auto. }
  destruct F as [F1 ->]. split; [cbn; exact F1|]. auto.
Qed.

Lemma inv_kept s s' : inv s -> kept s s' -> g_sp s' = g_sp s -> inv s'.
Proof. intros [A B] [C D] E. unfold inv. now rewrite C, E. Qed.

Lemma gen_args_does args : Forall expr_tells args ->
  forall fi i s c s', inv s -> gen_args slot fi i args s = Some (c, s') ->
  tells fr (repeat (in_frame fr (g_roots s)) (args_calls args)) (core s) c (core s') /\ kept s s'.
Proof.
  induction 1 as [|a args Ha _ IH]; intros fi i s c s' Hi H; cbn [gen_args] in H.
  - ginv H. split; [apply tells_nil|split; reflexivity].
  - apply seq_inv in H as (c1 & s1 & c2 & H1 & H & ->). pose proof (gen_expr_eff _ _ _ _ _ _ H1) as (S1 & _).
    apply Ha in H1 as (A1 & A2); [|exact Hi].
    apply seq_inv in H as (c3 & s3 & c4 & H3 & H & ->).
    pose proof (pass_arg_inv _ _ _ _ _ _ H3) as (_ & _ & _ & S2 & _).
    apply pass_arg_does in H3 as (B1 & B2 & B3).
    apply IH in H as (C1 & C2).
    + destruct A2 as [A2 A3], B3 as [B3 B4], C2 as [C2 C3]. split; [|split; congruence].
      rewrite B3, A2 in C1. cbn [args_calls]. rewrite repeat_plus. eapply tells_app; [exact A1|].
      change (repeat (in_frame fr (g_roots s)) (args_calls args)) with ([] ++ repeat (in_frame fr (g_roots s)) (args_calls args)).
      eapply tells_app; [|exact C1]. rewrite B2. now apply tells_plain.
    + eapply inv_kept; [|exact B3|lia]. eapply inv_kept; [exact Hi|exact A2|lia].
Qed.

Lemma kept_refl s : kept s s.
Proof. split; reflexivity. Qed.
Lemma kept_trans a b c : kept a b -> kept b c -> kept a c.
Proof. unfold kept. intros [] []. split; congruence. Qed.

(** finish_call up to the restoring of registers *)
Lemma finish_does fi cl s c s' : finish_call fi cl s = Some (c, s') ->
  exists c1 s1 c2, c = c1 ++ c2 /\
  tells fr (if fi_external fi then [] else [in_frame fr (g_roots s)]) (core s) c1 (core s1) /\ kept s s1 /\
  g_sp s1 = g_sp s - match cl with CSaved => 1 | _ => 0 end /\ g_reg s1 = g_reg s /\
  restore_registers s1 = Some (c2, s').
Proof.
  unfold finish_call. intros H.
  apply seq_inv in H as (c1 & s1 & c2 & H1 & H & ->).
  apply seq_inv in H as (c3 & s3 & c4 & H3 & H & ->).
  apply seq_inv in H as (c5 & s5 & c6 & H5 & H & ->).
  apply seq_inv in H as (c7 & s7 & c8 & H7 & H & ->).
  apply seq_inv in H as (c9 & s9 & c10 & H9 & H & ->).
  apply seq_inv in H as (c11 & s11 & c12 & H11 & H & ->).
  apply seq_inv in H as (c13 & s13 & c14 & H13 & H & ->).
  assert (A1 : forallb plain c1 = true /\ s1 = s) by (destruct (fi_variadic fi); ginv1 H1; subst; auto).
  assert (A3 : forallb plain c3 = true /\ s3 = match cl with CSaved => set_sp (fun x => x - 1) s1 | _ => s1 end)
    by (destruct cl; ginv1 H3; subst; auto).
  assert (A5 : forallb plain c5 = true /\ s5 = s3) by (destruct (sp_aligned s3); ginv1 H5; subst; auto).
  assert (A7 : forallb plain c7 = true /\ s7 = s5) by (destruct cl; ginv1 H7; subst; auto).
  assert (A9 : forallb plain c9 = true /\ s9 = s7)
    by (destruct (fi_external fi && fi_raw fi && kind_eqb (fi_ret fi) TInteger); ginv1 H9; subst; auto).
  assert (A13 : forallb plain c13 = true /\ s13 = s11) by (destruct (sp_aligned s11); ginv1 H13; subst; auto).
  destruct A1 as [A1 ->], A3 as [A3 E3], A5 as [A5 ->], A7 as [A7 ->], A9 as [A9 ->], A13 as [A13 ->].
  assert (K3 : kept s s3 /\ core s3 = core s /\ g_reg s3 = g_reg s /\ g_sp s3 = g_sp s - match cl with CSaved => 1 | _ => 0 end).
  { subst s3. destruct cl; repeat split; cbn; lia. }
  destruct K3 as (K3 & K4 & K5 & K6).
  assert (A11 : tells fr (if fi_external fi then [] else [in_frame fr (g_roots s)]) (core s3) c11 (core s11) /\ kept s3 s11 /\
     g_reg s11 = g_reg s3 /\ g_sp s11 = g_sp s3).
  { destruct (fi_external fi).
    - apply nop_inv in H11 as [-> ->]. split; [apply tells_nil|repeat split].
    - apply gc_map_does in H11. destruct K3 as [K3 _]. now rewrite K3 in H11. }
  destruct A11 as (B1 & B2 & B3 & B4).
  exists ((c1 ++ c3 ++ c5 ++ c7 ++ c9) ++ c11 ++ c13), s11, c14. split; [now rewrite <- !app_assoc|].
  split; [|split; [eauto using kept_trans|split; [lia|split; [congruence|exact H]]]].
  eapply tells_eq.
  - eapply tells_app; [apply tells_plain|eapply tells_app; [rewrite <- K4; exact B1|apply tells_plain; exact A13]].
    rewrite !forallb_app. now rewrite A1, A3, A5, A7, A9.
  - cbn [app]. now rewrite app_nil_r.
Qed.

(** Calls. *)
Lemma call_does fi args cl s c s' : Forall expr_tells args ->
  match cl with CSaved => fr <= g_sp s - 1 /\ low (g_sp s - 1) (g_roots s) | _ => inv s end ->
  seq spill_registers (seq (gen_args slot fi 0 args) (finish_call fi cl)) s = Some (c, s') ->
  tells fr (repeat (in_frame fr (g_roots s)) (args_calls args + (if fi_external fi then 0 else 1))) (core s) c (core s') /\
  kept s s'.
Proof.
  intros IH Hi0 H.
  assert (Hi : inv s). { destruct cl; try exact Hi0. split; [lia|]. eapply low_weaken; [|apply Hi0]. lia. }
  apply seq_inv in H as (c1 & s1 & c2 & H1 & H & ->). apply seq_inv in H as (c3 & s3 & c4 & H3 & H & ->).
  pose proof (spill_registers_inv _ _ _ H1) as (Ec & S1 & S2 & S3 & _).
  assert (R1 : g_roots s1 = g_roots s ++ spilled (g_sp s) (in_use_types s) /\ g_scopes s1 = g_scopes s /\ core s1 = core s).
  { clear - H1. unfold spill_registers, in_use_types in *. destruct (g_reg s) as [|ts r] eqn:Er; ginv1 H1; subst.
    - cbn. rewrite app_nil_r. auto.
    - apply spill_does in G. exact G. }
  destruct R1 as (R1 & R2 & R3). subst c1.
  assert (Hi1 : inv s1).
  { destruct Hi as [I1 I2]. split; [lia|]. rewrite R1, S2. apply Forall_app. split.
    - eapply low_weaken; [|exact I2]. lia.
    - apply spilled_low. }
  assert (IHe : Forall (fun e => forall ta s c s', gen_expr slot e ta s = Some (c, s') -> eff s s') args).
  { apply Forall_forall. intros e _. apply gen_expr_eff. }
  pose proof (gen_args_eff _ _ IHe _ _ _ _ _ H3) as (S4 & S5 & _). clear IHe.
  eapply gen_args_does in H3 as (T1 & T2 & T3); [|exact IH|exact Hi1].
  rewrite R1, in_frame_spilled in T1 by apply Hi.
  apply finish_does in H as (c5 & s5 & c6 & -> & F1 & [F2 F3] & F4 & F5 & H).
  rewrite T2, R1, in_frame_spilled in F1 by apply Hi.
  assert (L : core s' = core s5 /\ g_roots s' = g_roots s /\ g_scopes s' = g_scopes s5).
  { clear T1 F1. unfold restore_registers in H. apply seq_inv in H as (c7 & s7 & c8 & H7 & H & ->). ginv1 H7. subst.
    cbn [g_reg set_reg] in H. rewrite F5, S5, S3 in H. cbn [tl] in H. unfold in_use_types in *.
    destruct (g_reg s) as [|ts r] eqn:Er.
    - injection H as <- <-. cbn. cbn in R1. rewrite app_nil_r in R1. split; [reflexivity|]. split; [|reflexivity].
      unfold set_reg. cbn. congruence.
    - cbn [hd] in *.
      assert (Hr5 : g_roots s5 = g_roots s ++ spilled (g_sp s) ts) by congruence.
      destruct cl.
      1, 2: eapply (unspill_does _ _ _ _ _ (g_sp s) (g_roots s)) in H as (L1 & L2 & L3);
        [split; [exact L3|]; split; [exact L1|exact L2]|cbn [g_sp set_reg]; lia|apply Hi|exact Hr5].
      assert (Hno : Forall (fun t => is_pointer t = false) ts).
      { eapply (unspill_shifted _ _ _ _ _ (g_sp s - 1)) in H; [exact H|cbn [g_sp set_reg]; lia|].
        cbn [g_roots set_reg]. rewrite Hr5. intros o u Ho Hb. apply in_app_or in Ho as [Ho|Ho].
        - destruct Hi0 as [_ Hl]. unfold low in Hl. rewrite Forall_forall in Hl. apply Hl in Ho. cbn [fst] in Ho. lia.
        - apply spilled_where in Ho as (k & K1 & K2 & K3). destruct k as [|k]; [lia|].
          exists k, u. split; [exact K1|]. split; [exact K2|]. lia. }
      apply unspill_none in H as (L1 & L2 & L3); [|exact Hno]. rewrite (spilled_none _ _ Hno), app_nil_r in Hr5.
      split; [exact L3|]. split; [rewrite L1; exact Hr5|exact L2]. }
  destruct L as (L1 & L2 & L3).
  pose proof (restore_registers_inv _ _ _ H) as (-> & _).
  split; [|split; [exact L2|congruence]].
  eapply tells_eq.
  - eapply tells_app; [rewrite <- R3 in *; apply tells_plain, plain_spill|]. eapply tells_app; [exact T1|].
    eapply tells_app; [exact F1|]. rewrite L1. apply tells_plain, plain_unspill.
  - rewrite repeat_plus. cbn [app]. f_equal. rewrite app_nil_r. destruct (fi_external fi); reflexivity.
Qed.

Ltac inv_tac :=
  unfold inv, kept in *; cbn [g_sp g_roots set_sp set_lab] in *;
  repeat match goal with H : _ /\ _ |- _ => destruct H end;
  split; [lia|];
  repeat match goal with E : g_roots ?s = _ |- low _ (g_roots ?s) => rewrite E end;
  eapply low_weaken; [|eassumption]; lia.
Ltac expr_step :=
  match goal with
  | IH : expr_tells ?e, G : gen_expr _ ?e _ ?s = Some _ |- _ =>
      let E := fresh "E" in let T := fresh "T" in let K := fresh "K" in let I := fresh "I" in
      pose proof (gen_expr_eff _ _ _ _ _ _ G) as (E & _ & _);
      assert (I : inv s) by inv_tac;
      destruct (IH _ _ _ _ I G) as [T K]; clear G
  end.
Ltac tw :=
  repeat first
  [ eassumption
  | match goal with
    | |- tells _ _ _ (_ ++ _) _ => eapply tells_app
    | |- tells _ _ _ (_ :: _ :: _) _ => eapply tells_cons; [reflexivity|]
    | |- tells _ _ _ (_ :: ?c) _ => eapply tells_cons; [reflexivity|]
    | |- tells _ _ _ [] _ => apply tells_nil
    end ].
Ltac roots_tac :=
  unfold kept in *; cbn [g_sp g_roots g_scopes set_sp set_lab set_lits] in *;
  repeat match goal with H : _ /\ _ |- _ => destruct H end;
  repeat match goal with E : g_roots ?s = _ |- context [g_roots ?s] => rewrite E end;
  cbn [calls]; rewrite ?app_nil_r, ?app_nil_l, ?repeat_plus, <- ?app_assoc; try reflexivity.
Ltac finish_walk :=
  split; [eapply tells_eq; [tw|roots_tac]|
    unfold kept in *; cbn [g_sp g_roots g_scopes set_sp set_lab] in *;
    repeat match goal with H : _ /\ _ |- _ => destruct H end; split; congruence].

Lemma gen_expr_tells e : expr_tells e.
Proof.
  induction e using expr_ind'; intros ta s0 c0 s0' Hinv H0;
    try (rewrite gen_expr_call in H0 || rewrite gen_expr_call_var in H0 || rewrite gen_expr_call_expr in H0);
    try (cbn [gen_expr] in H0).
  - destruct (_ || _) in H0; [ginv H0|]. destruct (_ || _) in H0; ginv H0; finish_walk.
  - ginv H0. finish_walk.
  - ginv H0. destruct SL as (_ & _ & _ & _ & E1 & E2 & E3 & E4 & _).
    split; [|split; assumption]. assert (Ec : core s1 = core s0) by (unfold core; congruence). rewrite Ec.
    apply tells_plain. reflexivity.
  - ginv H0. do 2 expr_step. finish_walk.
  - destruct op; ginv H0; do 2 expr_step; finish_walk.
  - ginv H0. expr_step. finish_walk.
  - ginv H0. expr_step. finish_walk.
  - ginv H0. expr_step. finish_walk.
  - ginv H0. do 2 expr_step. finish_walk.
  - ginv H0. do 2 expr_step. finish_walk.
  - ginv H0. finish_walk.
  - destruct b; ginv H0; finish_walk.
  - ginv H0. finish_walk.
  - ginv H0. do 3 expr_step. finish_walk.
  - expr_step. finish_walk.
  - apply call_does in H0; assumption.
  - apply call_does in H0; assumption.
  - apply seq_inv in H0 as (c1 & s1 & c2 & H1 & H0 & ->).
    apply seq_inv in H0 as (c3 & s3 & c4 & H3 & H0 & ->). ginv H3. expr_step.
    apply call_does in H0 as [T2 K2]; [|assumption|].
    + finish_walk.
    + clear H0. unfold inv, kept in *. cbn [g_sp g_roots set_sp]. destruct Hinv, K as [K _]. rewrite K. split; [lia|].
      eapply low_weaken; [|eassumption]. lia.
  - ginv H0. do 2 expr_step. finish_walk.
  - ginv H0. do 2 expr_step. finish_walk.
  - ginv H0. finish_walk.
Qed.
End Expr.
