(** A check of code, event by event, that keeps track of the registers known to hold the
    right value; every proper run of code that passes it is careful. *)
From Coq Require Import ZArith List Bool String Lia.
From Verif Require Import X86 GenModel GenProgram PeepModel PeepSpec PeepCalls PeepExec PeepProofs.
Import ListNotations.
Open Scope nat_scope.

Record fs := Fs {
  f_held : option (inst * list operand);
  f_clean : reg -> bool;
  f_reach : bool;
  f_val : bool;
  f_sites : list site
}.
Definition drop_of (h : option (inst * list operand)) (i : inst) (ops : list operand) : option reg :=
  match merged h i ops with Some _ => target_reg h | None => None end.
Definition has (C : reg -> bool) (l : list reg) : Prop := forall r, In r l -> C r = true.

Lemma held_other P : forall h n e, nth_error P n = Some e -> match e with EIns _ _ => False | _ => True end -> held_at h P (S n) = None.
Proof.
  induction P as [|e0 P0 IH]; intros h n e E He; [destruct n; discriminate|].
  destruct n as [|n]; [injection E as ->; destruct e; try contradiction; reflexivity|]. cbn in E. destruct e0; apply (IH _ n e E He).
Qed.

Section Flow.
Variable need : label -> list reg.
Variable lval : label -> bool.
Variable sig : string -> signature.
Variable known : string -> bool.
Variable takes gives : string -> list reg.

Definition entry (n : nat) : list reg := rsp :: rbp :: firstn n arg_regs.
Definition left (v : bool) : list reg := rsp :: rbp :: if v then [rax] else [].
Definition in_list (l : list reg) : reg -> bool := fun r => existsb (reg_eqb r) l.
Definition hd_site (l : list site) : site := match l with c :: _ => c | [] => Site 0 false end.

Definition next (x : fs) (e : event) : fs :=
  match e with
  | EIns i ops =>
    let h := hold (f_held x) i ops in
    match i, ops with
    | call, _ => Fs h (in_list (left (s_wants (hd_site (f_sites x))))) (f_reach x) (f_val x) (tl (f_sites x))
    | jmp, _ | ret, [] => Fs h (fun _ => true) false (f_val x) (f_sites x)
    | _, _ => Fs h (fun r => match drop_of (f_held x) i ops with
                             | Some r' => if reg_eqb r r' then false else negb (settled (fun q => negb (f_clean x q)) i ops r)
                             | None => negb (settled (fun q => negb (f_clean x q)) i ops r) end)
                 (f_reach x) (f_val x) (f_sites x)
    end
  | ELabel l => Fs None (in_list (need l)) true (lval l) (f_sites x)
  | EFn f => Fs None (in_list (entry (fst (sig f)))) true (snd (sig f)) (f_sites x)
  | EAddr _ | EFlush => Fs None (f_clean x) (f_reach x) (f_val x) (f_sites x)
  | _ => Fs None (fun _ => true) false (f_val x) (f_sites x)
  end.
Definition fine (x : fs) (e : event) : Prop :=
  match e with
  | EIns i ops =>
    has (f_clean x) (match i, ops with call, [OFn _] => [rsp] | _, _ => needs i ops end) /\
    (forall r, drop_of (f_held x) i ops = Some r -> ~ In r (other_uses i ops)) /\
    match i, ops with
    | call, [OFn f] => exists c rest, f_sites x = c :: rest /\
        if known f then serves (sig f) c /\ has (f_clean x) (entry (s_args c))
        else has (f_clean x) (takes f) /\ incl (left (s_wants c)) (gives f)
    | call, [OMem _] => exists c rest, f_sites x = c :: rest /\ has (f_clean x) (entry (s_args c))
    | (jmp | jne | jae), [OLab l] => has (f_clean x) (need l) /\ (f_val x = true -> lval l = true)
    | jmp, [OMem _] | ret, [] => has (f_clean x) (left (f_val x))
    | _, _ => True
    end
  | ELabel l => has (f_clean x) (need l) /\ (f_reach x = true -> f_val x = true -> lval l = true)
  | EFn f => has (f_clean x) (entry (fst (sig f))) /\ (f_reach x = true -> f_val x = true -> snd (sig f) = true)
  | _ => True
  end.
Fixpoint checks (x : fs) (c : list event) : Prop :=
  match c with [] => True | e :: t => fine x e /\ checks (next x e) t end.
Notation run_flow := (fun c x => fold_left next c x).

Lemma checks_app x a b : checks x (a ++ b) <-> checks x a /\ checks (fold_left next a x) b.
Proof. revert x. induction a as [|e a IH]; intros x; cbn; [tauto|]. rewrite IH. tauto. Qed.
Lemma checks_nth x c n e : checks x c -> nth_error c n = Some e -> fine (fold_left next (firstn n c) x) e.
Proof.
  revert x n. induction c as [|a c IH]; intros x n H Hn; [destruct n; discriminate|]. destruct n as [|n]; cbn in *.
  - injection Hn as <-. tauto.
  - apply IH; tauto.
Qed.
Lemma fold_nth {A B} (f : A -> B -> A) x c n e : nth_error c n = Some e -> fold_left f (firstn (S n) c) x = f (fold_left f (firstn n c) x) e.
Proof.
  revert x n. induction c as [|a c IH]; intros x n Hn; [destruct n; discriminate|]. destruct n as [|n].
  - injection Hn as <-. reflexivity.
  - change (fold_left f (firstn (S n) c) (f x a) = f (fold_left f (firstn n c) (f x a)) e). apply IH. exact Hn.
Qed.

(* ------------------------------------------------------------------------ soundness *)

Section Run.
Variable laddr : label -> Z.
Variable extern : string -> (reg -> Z) * (Z -> Z) -> option ((reg -> Z) * (Z -> Z)).
Variable extern_skips : string -> bool.
Variable addr : nat -> Z.
Variable place : Z -> option nat.
Variable P : list event.
Variable sites : list site.
Hypothesis Hknown : forall f, known f = match find_fn P f with Some _ => true | None => false end.
Let x0 := Fs None (fun _ => true) false false sites.
Hypothesis Hchecks : checks x0 P.
(** The function run first returns a value. *)
Variable top : bool.
Let at_ (n : nat) : fs := fold_left next (firstn n P) x0.

Lemma at_step n e : nth_error P n = Some e -> at_ (S n) = next (at_ n) e.
Proof. apply fold_nth. Qed.
Lemma at_fine n e : nth_error P n = Some e -> fine (at_ n) e.
Proof. apply checks_nth. exact Hchecks. Qed.

Lemma next_held x e : f_held (next x e) = match e with EIns i ops => hold (f_held x) i ops | _ => None end.
Proof. destruct e; try reflexivity. destruct i; try reflexivity. destruct ops; reflexivity. Qed.
Lemma at_held n : n <= List.length P -> f_held (at_ n) = held_at None P n.
Proof.
  induction n as [|n IH]; intros L; [reflexivity|]. destruct (nth_error P n) as [e|] eqn:E; [|apply nth_error_None in E; lia].
  rewrite (at_step n e E), next_held, IH by lia. destruct e as [i ops| | | | | | |].
  1:{ symmetry. now apply held_next. }
  all: symmetry; exact (held_other P None n _ E I).
Qed.
Lemma dropped_of n i ops : nth_error P n = Some (EIns i ops) -> dropped P n = drop_of (f_held (at_ n)) i ops.
Proof.
  intros E. assert (L : n < List.length P) by (apply nth_error_Some; congruence). rewrite at_held by lia.
  unfold dropped, drop_of. destruct (spot_mark P None 0 n _ E) as [q ->]. destruct (merged _ _ _); reflexivity.
Qed.
Lemma next_sites x e : f_sites (next x e) = if is_call e then tl (f_sites x) else f_sites x.
Proof. destruct e; try reflexivity. destruct i; try reflexivity. destruct ops; reflexivity. Qed.
Lemma nth_tl {A} (l : list A) k : nth_error (tl l) k = nth_error l (S k).
Proof. destruct l; destruct k; reflexivity. Qed.
Lemma at_sites n : n <= List.length P -> forall k, nth_error (f_sites (at_ n)) k = nth_error sites (List.length (filter is_call (firstn n P)) + k).
Proof.
  induction n as [|n IH]; intros L k; [reflexivity|]. destruct (nth_error P n) as [e|] eqn:E; [|apply nth_error_None in E; lia].
  rewrite (at_step n e E), next_sites.
  assert (Ef : List.length (filter is_call (firstn (S n) P)) = List.length (filter is_call (firstn n P)) + if is_call e then 1 else 0).
  { clear - E. revert n E. induction P as [|e0 P0 IH]; intros n E; [destruct n; discriminate|]. destruct n as [|n].
    - injection E as ->. cbn. destruct (is_call e); reflexivity.
    - change (List.length (filter is_call (e0 :: firstn (S n) P0)) = List.length (filter is_call (e0 :: firstn n P0)) + if is_call e then 1 else 0).
      cbn [filter]. destruct (is_call e0); cbn [List.length]; rewrite (IH n E); reflexivity. }
  rewrite Ef. destruct (is_call e).
  - rewrite nth_tl, IH by lia. f_equal. lia.
  - rewrite IH by lia. f_equal. lia.
Qed.
Lemma site_here n c rest : n <= List.length P -> f_sites (at_ n) = c :: rest -> site_at sites P n = Some c.
Proof. intros L E. unfold site_at. pose proof (at_sites n L 0) as H. rewrite E, Nat.add_0_r in H. symmetry. exact H. Qed.

(** What is known on arrival at a place, also by a jump or a call. *)
Definition view_clean (n : nat) : reg -> bool :=
  match nth_error P n with
  | Some (ELabel l) => in_list (need l)
  | Some (EFn f) => in_list (entry (fst (sig f)))
  | _ => f_clean (at_ n)
  end.
Definition view_val (n : nat) : bool :=
  match nth_error P n with
  | Some (ELabel l) => lval l
  | Some (EFn f) => snd (sig f)
  | _ => f_val (at_ n)
  end.
Definition wants_at (n : nat) : bool := match site_at sites P n with Some c => s_wants c | None => false end.
Fixpoint chain (v : bool) (calls : list nat) : Prop :=
  match calls with
  | [] => top = true -> v = true
  | n :: rest => (wants_at n = true -> v = true) /\ (exists ops, nth_error P n = Some (EIns call ops)) /\ f_reach (at_ n) = true /\ chain (f_val (at_ n)) rest
  end.
Definition inv (n : nat) (D : reg -> bool) (calls : list nat) : Prop :=
  (forall r, view_clean n r = true -> D r = false) /\
  (f_reach (at_ n) = true \/ match nth_error P n with Some (ELabel _ | EFn _) => True | _ => False end) /\
  chain (view_val n) calls.

Lemma chain_weaken v w calls : (v = true -> w = true) -> chain v calls -> chain w calls.
Proof. destruct calls; cbn; [auto|]. intros H (A & B). split; auto. Qed.
Lemma in_list_has l r : in_list l r = true <-> In r l.
Proof. apply mem_reg_in. Qed.

(** Going on at [n] with what is known there. *)
Lemma inv_at n D calls : (forall r, f_clean (at_ n) r = true -> D r = false) -> f_reach (at_ n) = true ->
  chain (f_val (at_ n)) calls -> inv n D calls.
Proof.
  intros H R C. unfold inv, view_clean, view_val. destruct (nth_error P n) as [e|] eqn:E; [|auto].
  pose proof (at_fine n e E) as F. destruct e as [i ops|l|f| | | | |]; try (auto; fail).
  - destruct F as [F1 F2]. split; [|split; [auto|revert C; apply chain_weaken; auto]]. intros r Hr. apply H, F1. now apply in_list_has.
  - destruct F as [F1 F2]. split; [|split; [auto|revert C; apply chain_weaken; auto]]. intros r Hr. apply H, F1. now apply in_list_has.
Qed.
Lemma inv_label l n D calls v : find_label P l = Some n -> (forall r, In r (need l) -> D r = false) -> (v = true -> lval l = true) -> chain v calls -> inv n D calls.
Proof.
  intros F H V C. assert (E : exists l', nth_error P n = Some (ELabel l') /\ label_eqb l l' = true).
  { unfold find_label in F. clear - F. revert n F. assert (K : forall i n, find_label_from i P l = Some n -> i <= n /\ exists l', nth_error P (n - i) = Some (ELabel l') /\ label_eqb l l' = true).
    { induction P as [|e P0 IH]; intros i n F; [discriminate|]. destruct e as [| l'| | | | | |]; cbn in F; try (destruct (IH _ _ F) as (A & l' & B & C); split; [lia|]; exists l'; replace (n - i) with (S (n - S i)) by lia; auto).
      destruct (label_eqb l l') eqn:X; [injection F as <-; split; [lia|]; exists l'; rewrite Nat.sub_diag; auto|].
      destruct (IH _ _ F) as (A & l2 & B & C). split; [lia|]. exists l2. replace (n - i) with (S (n - S i)) by lia. auto. }
    intros n F. destruct (K 0 n F) as (_ & l' & A & B). rewrite Nat.sub_0_r in A. eauto. }
  destruct E as (l' & E & X).
  assert (l = l').
  { destruct l, l'; cbn in X; try discriminate; try reflexivity.
    - apply andb_true_iff in X as [X Y]. apply Nat.eqb_eq in Y. subst. destruct p, p0; try discriminate; reflexivity.
    - apply Nat.eqb_eq in X. congruence.
    - apply Nat.eqb_eq in X. congruence.
    - apply String.eqb_eq in X. congruence.
    - apply String.eqb_eq in X. congruence. }
  subst l'. unfold inv, view_clean, view_val. rewrite E. split; [|split; [auto|]].
  - intros r Hr. apply H. now apply in_list_has.
  - revert C. now apply chain_weaken.
Qed.
Lemma inv_fn f n D calls : nth_error P n = Some (EFn f) -> (forall r, In r (entry (fst (sig f))) -> D r = false) -> chain (snd (sig f)) calls -> inv n D calls.
Proof.
  intros E H C. unfold inv, view_clean, view_val. rewrite E. split; [|split; [auto|exact C]]. intros r Hr. apply H. now apply in_list_has.
Qed.
Lemma find_fn_nth f n : find_fn P f = Some n -> nth_error P n = Some (EFn f).
Proof.
  unfold find_fn. intros F. assert (K : forall i n, find_fn_from i P f = Some n -> i <= n /\ nth_error P (n - i) = Some (EFn f)).
  { clear. induction P as [|e P0 IH]; intros i n F; [discriminate|]. destruct e as [| | f'| | | | |]; cbn in F; try (destruct (IH _ _ F) as (A & B); split; [lia|]; replace (n - i) with (S (n - S i)) by lia; auto).
    destruct (String.eqb f f') eqn:X; [injection F as <-; split; [lia|]; rewrite Nat.sub_diag; apply String.eqb_eq in X; now subst|].
    destruct (IH _ _ F) as (A & B). split; [lia|]. replace (n - i) with (S (n - S i)) by lia. auto. }
  destruct (K 0 n F) as (_ & A). now rewrite Nat.sub_0_r in A.
Qed.
Lemma entry_mono k k' r : k <= k' -> In r (entry k) -> In r (entry k').
Proof.
  intros L [<-|[<-|H]]; [left; reflexivity|right; left; reflexivity|right; right].
  rewrite <- (firstn_skipn k (firstn k' arg_regs)), firstn_firstn. replace (Nat.min k k') with k by lia. apply in_or_app. now left.
Qed.

(** The place after a call. *)
Lemma inv_return n D calls ops : nth_error P n = Some (EIns call ops) -> f_reach (at_ n) = true -> chain (f_val (at_ n)) calls ->
  (forall r, In r (left (wants_at n)) -> D r = false) ->
  inv (S n) D calls /\ forall l, nth_error P (S n) = Some (EAddr l) -> inv (S (S n)) D calls.
Proof.
  intros E R C H. assert (L : n < List.length P) by (apply nth_error_Some; congruence).
  pose proof (at_step n _ E) as A. cbn [next] in A.
  assert (Hc : forall r, f_clean (at_ (S n)) r = true -> D r = false).
  { rewrite A. cbn [f_clean]. intros r Hr. apply H. apply in_list_has in Hr. unfold wants_at.
    pose proof (at_sites n ltac:(lia) 0) as Hs. rewrite Nat.add_0_r in Hs. unfold site_at. rewrite <- Hs. destruct (f_sites (at_ n)); exact Hr. }
  assert (Hv : f_val (at_ (S n)) = f_val (at_ n)) by (rewrite A; reflexivity).
  assert (Hr : f_reach (at_ (S n)) = true) by (rewrite A; exact R).
  split.
  - apply inv_at; [exact Hc|exact Hr|now rewrite Hv].
  - intros l El. pose proof (at_step (S n) _ El) as A2. cbn [next] in A2. apply inv_at; rewrite A2; [exact Hc|exact Hr|cbn [f_val]; now rewrite Hv].
Qed.

Lemma sound_step s s1 D calls calls1 : inv (pc s) D calls -> step laddr extern extern_skips addr place P s = Some s1 ->
  keeps extern_skips sites sig P s calls s1 calls1 ->
  careful takes P D (pc s) /\ inv (pc s1) (after gives P D (pc s)) calls1.
Proof.
  destruct s as [n c]. cbn [pc]. intros (Vc & Vr & Vv) St K. unfold keeps in K. cbn [pc] in K.
  destruct (nth_error P n) as [e|] eqn:E.
  2:{ destruct c as [[rs m] fl]. unfold step in St. rewrite E in St. discriminate. }
  assert (L : n < List.length P) by (apply nth_error_Some; congruence).
  pose proof (at_fine n e E) as F. pose proof (at_step n e E) as A.
  destruct e as [i ops|l|f| | | | |].
  - unfold view_clean, view_val in Vc, Vv. rewrite E in Vc, Vv. destruct Vr as [Vr|[]]. destruct F as (Fu & Fd & Fc).
    pose proof (dropped_of n i ops E) as Ed.
    assert (C2 : forall r i0 ops0, dropped P n = Some r -> nth_error P n = Some (EIns i0 ops0) -> ~ In r (other_uses i0 ops0)).
    { intros r i0 ops0 Hd Hi. rewrite E in Hi. injection Hi as <- <-. apply Fd. now rewrite <- Ed. }
    destruct (control i ops) eqn:Hc.
    + (* control *)
      assert (Hd : dropped P n = None).
      { rewrite Ed. unfold drop_of. destruct i; try discriminate Hc; destruct (f_held (at_ n)) as [[[] [|? [|? [|]]]]|]; reflexivity. }
      destruct c as [[rs m] fl]. unfold step in St. rewrite E in St.
      assert (Cu : forall r, In r (match i, ops with call, [OFn _] => [rsp] | _, _ => needs i ops end) -> D r = false) by (intros r Hr; apply Vc, Fu, Hr).
      assert (Ca : (match i, ops with call, [OFn f] => known f = false -> has (f_clean (at_ n)) (takes f) | _, _ => True end) -> careful takes P D n).
      { intros Ct. split; [|exact C2]. intros r. unfold uses_at. rewrite E. intros Hr. destruct i; try (apply Cu; exact Hr).
        destruct ops as [|[] [|]]; try (apply Cu; exact Hr). destruct Hr as [<-|Hr]; [apply Cu; now left|]. pose proof (Hknown f) as Kf.
        destruct (find_fn P f); [contradiction|]. apply Vc, Ct; assumption. }
      assert (Af : forall r, after gives P D n r = match i, ops with
          | call, [OFn f] => match find_fn P f with Some _ => if reg_eqb r rsp then false else D r | None => negb (mem_reg r (gives f)) end
          | _, _ => settled D i ops r end) by (intros r; unfold after; rewrite E, Hd; reflexivity).
      destruct i; try discriminate Hc; destruct ops as [|o [|]]; try discriminate Hc; try (destruct o; discriminate Hc).
      * (* jmp *) split; [apply Ca; exact I|]. destruct o as [| | | |a|l|]; try discriminate Hc.
        -- destruct K as (m0 & -> & Hp & l & El). destruct Vv as (Vw & (ops & Em) & Rm & Vv).
           rewrite Hp. eapply inv_return; [exact Em|exact Rm|exact Vv| |exact El].
           intros r Hr. rewrite Af. apply Vc, Fc. revert Hr. unfold left. intros [Hr|[Hr|Hr]]; [now left|right; now left|right; right].
           destruct (wants_at m0); [|destruct Hr]. now rewrite (Vw eq_refl).
        -- subst calls1. destruct Fc as [F1 F2]. destruct (find_label P l) as [p|] eqn:El; [|discriminate]. injection St as <-. cbn [pc].
           apply (inv_label l p _ calls (f_val (at_ n)) El); [|exact F2|exact Vv]. intros r Hr. rewrite Af. apply Vc, F1, Hr.
      * (* jne *) split; [apply Ca; exact I|]. destruct o as [| | | | |l|]; try discriminate Hc. subst calls1. destruct Fc as [F1 F2]. destruct fl as [[d s]|]; [|discriminate].
        assert (Hst : inv (S n) (after gives P D n) calls).
        { apply inv_at; rewrite A; [|exact Vr|exact Vv]. intros r Hr. rewrite Af. apply Vc. cbn in Hr.
          destruct (drop_of (f_held (at_ n)) jne [OLab l]) as [r'|]; [destruct (reg_eqb r r'); [discriminate|]|]; destruct (f_clean (at_ n) r); reflexivity || discriminate. }
        destruct (d =? s)%Z; [injection St as <-; exact Hst|].
        destruct (find_label P l) as [p|] eqn:El; [|discriminate]. injection St as <-. cbn [pc].
        apply (inv_label l p _ calls (f_val (at_ n)) El); [|exact F2|exact Vv]. intros r Hr. rewrite Af. apply Vc, F1, Hr.
      * (* jae *) split; [apply Ca; exact I|]. destruct o as [| | | | |l|]; try discriminate Hc. subst calls1. destruct Fc as [F1 F2]. destruct fl as [[d s]|]; [|discriminate].
        assert (Hst : inv (S n) (after gives P D n) calls).
        { apply inv_at; rewrite A; [|exact Vr|exact Vv]. intros r Hr. rewrite Af. apply Vc. cbn in Hr.
          destruct (drop_of (f_held (at_ n)) jae [OLab l]) as [r'|]; [destruct (reg_eqb r r'); [discriminate|]|]; destruct (f_clean (at_ n) r); reflexivity || discriminate. }
        destruct (s <=? d)%Z; [|injection St as <-; exact Hst].
        destruct (find_label P l) as [p|] eqn:El; [|discriminate]. injection St as <-. cbn [pc].
        apply (inv_label l p _ calls (f_val (at_ n)) El); [|exact F2|exact Vv]. intros r Hr. rewrite Af. apply Vc, F1, Hr.
      * (* ret *) split; [apply Ca; exact I|]. destruct K as (m0 & -> & Hp). destruct Vv as (Vw & (ops & Em) & Rm & Vv).
        rewrite Hp. eapply inv_return; [exact Em|exact Rm|exact Vv|].
        intros r Hr. rewrite Af. assert (Dr : D r = false).
        { apply Vc, Fc. revert Hr. unfold left. intros [Hr|[Hr|Hr]]; [now left|right; now left|right; right].
          destruct (wants_at m0); [|destruct Hr]. now rewrite (Vw eq_refl). }
        cbn. destruct (_ || _); [reflexivity|exact Dr].
      * (* call *) assert (Ech : forall c rest, f_sites (at_ n) = c :: rest -> forall g, serves g c -> chain (snd g) (n :: calls)).
        { intros c rest Ec g [_ Sv]. split; [|split; [eauto|split; [exact Vr|exact Vv]]].
          unfold wants_at. rewrite (site_here n c rest ltac:(lia) Ec). exact Sv. }
        destruct o as [| | | |a| |f]; try discriminate Hc.
        -- split; [apply Ca; exact I|]. destruct K as [-> (g & c & Eg & Ec & Sv)]. destruct Fc as (c' & rest & Es & Fe).
           rewrite (site_here n c' rest ltac:(lia) Es) in Ec. injection Ec as ->.
           apply (inv_fn g); [exact Eg| |exact (Ech c rest Es _ Sv)].
           intros r Hr. rewrite Af. unfold settled. destruct (existsb _ _); [reflexivity|]. apply Vc, Fe. revert Hr. apply entry_mono. apply Sv.
        -- destruct Fc as (c & rest & Es & Fk). split.
           { apply Ca. intros Kf. rewrite Kf in Fk. apply Fk. }
           pose proof (Hknown f) as Kf. destruct (aligned _); [|discriminate]. unfold call_named in St. destruct (find_fn P f) as [p|] eqn:Ef; rewrite Kf in Fk.
           ++ subst calls1. destruct Fk as [Sv Fe]. injection St as <-. cbn [pc]. apply (inv_fn f); [now apply find_fn_nth| |exact (Ech c rest Es _ Sv)].
              intros r Hr. rewrite Af. destruct (reg_eqb r rsp); [reflexivity|]. apply Vc, Fe. revert Hr. apply entry_mono. apply Sv.
           ++ destruct Fk as [Ft Fg]. destruct K as [-> K].
              assert (Hr : forall r, In r (left (wants_at n)) -> after gives P D n r = false).
              { intros r Hr. rewrite Af. apply negb_false_iff, mem_reg_in, Fg. unfold wants_at in Hr. now rewrite (site_here n c rest ltac:(lia) Es) in Hr. }
              destruct (inv_return n (after gives P D n) calls _ E Vr Vv Hr) as [I1 I2].
              destruct (extern f (rs, m)) as [[rs1 m1]|]; [|discriminate].
              destruct (extern_skips f); [|injection St as <-; exact I1].
              destruct (K eq_refl) as [Hp (l & El)]. rewrite Hp. exact (I2 l El).
    + (* data *) rewrite (step_data laddr extern extern_skips P addr place n i ops c E Hc) in St.
      destruct (exec laddr i ops c) as [c1|] eqn:Ex; [|discriminate]. injection St as <-. cbn [pc].
      assert (K' : calls1 = calls).
      { destruct i; try exact K; destruct ops as [|[] [|]]; try exact K; discriminate Hc. }
      subst calls1.
      assert (Cu : forall r, In r (needs i ops) -> D r = false).
      { intros r Hr. apply Vc, Fu. destruct i; try exact Hr. destruct ops as [|[] [|]]; exact Hr. }
      split.
      { split; [|exact C2]. intros r. unfold uses_at. rewrite E. intros Hr. apply Cu. destruct i; try exact Hr. destruct ops as [|[] [|]]; try exact Hr. discriminate Hc. }
      assert (Hset : forall r, settled (fun q => negb (f_clean (at_ n) q)) i ops r = false -> settled D i ops r = false).
      { intros r. unfold settled. assert (Hq : forall q, negb (f_clean (at_ n) q) = false -> D q = false) by (intros q Hq; apply Vc; now apply negb_false_iff in Hq).
        destruct i; try (destruct (existsb _ _); [auto|apply Hq]). destruct ops as [|[] [|[] [|]]]; try (destruct (existsb _ _); [auto|apply Hq]).
        destruct (reg_eqb _ _); apply Hq. }
      assert (Af : forall r, after gives P D n r = match dropped P n with Some r' => if reg_eqb r r' then true else settled D i ops r | None => settled D i ops r end).
      { intros r. unfold after. rewrite E. destruct (dropped P n); [reflexivity|]. destruct i; try reflexivity. destruct ops as [|[] [|]]; try reflexivity. discriminate Hc. }
      assert (An : (match i, ops with call, _ | jmp, _ | ret, [] => false | _, _ => true end = true) ->
        inv (S n) (after gives P D n) calls).
      { intros Hn. assert (A' : at_ (S n) = Fs (hold (f_held (at_ n)) i ops) (fun r => match drop_of (f_held (at_ n)) i ops with
            | Some r' => if reg_eqb r r' then false else negb (settled (fun q => negb (f_clean (at_ n) q)) i ops r)
            | None => negb (settled (fun q => negb (f_clean (at_ n) q)) i ops r) end) (f_reach (at_ n)) (f_val (at_ n)) (f_sites (at_ n))).
        { rewrite A. destruct i; try discriminate Hn; try reflexivity. destruct ops; [discriminate Hn|reflexivity]. }
        apply inv_at; rewrite A'; [|exact Vr|exact Vv]. cbn [f_clean]. intros r. rewrite Af, Ed.
        destruct (drop_of _ _ _) as [r'|]; [destruct (reg_eqb r r'); [discriminate|]|]; rewrite negb_true_iff; apply Hset. }
      destruct i; try (apply An; reflexivity).
      * exfalso. destruct c as [[? ?] ?]. discriminate Ex.
      * destruct ops; [discriminate Hc|apply An; reflexivity].
      * exfalso. destruct c as [[? ?] ?]. discriminate Ex.
  - (* label *) destruct c as [[rs m] fl]. unfold step in St. rewrite E in St. injection St as <-. cbn [pc]. subst calls1.
    split; [split; [intros r; unfold uses_at; rewrite E; contradiction|intros r i ops _ Hi; rewrite E in Hi; discriminate]|].
    unfold view_clean, view_val in Vc, Vv. rewrite E in Vc, Vv. apply inv_at; rewrite A; [|reflexivity|exact Vv].
    intros r Hr. unfold after. rewrite E. apply Vc, Hr.
  - destruct c as [[rs m] fl]. unfold step in St. rewrite E in St. injection St as <-. cbn [pc]. subst calls1.
    split; [split; [intros r; unfold uses_at; rewrite E; contradiction|intros r i ops _ Hi; rewrite E in Hi; discriminate]|].
    unfold view_clean, view_val in Vc, Vv. rewrite E in Vc, Vv. apply inv_at; rewrite A; [|reflexivity|exact Vv].
    intros r Hr. unfold after. rewrite E. apply Vc, Hr.
  - destruct c as [[rs m] fl]. unfold step in St. rewrite E in St. discriminate.
  - destruct c as [[rs m] fl]. unfold step in St. rewrite E in St. injection St as <-. cbn [pc]. subst calls1.
    split; [split; [intros r; unfold uses_at; rewrite E; contradiction|intros r i ops _ Hi; rewrite E in Hi; discriminate]|].
    unfold view_clean, view_val in Vc, Vv. rewrite E in Vc, Vv. destruct Vr as [Vr|[]]. apply inv_at; rewrite A; [|exact Vr|exact Vv].
    intros r Hr. unfold after. rewrite E. apply Vc, Hr.
  - destruct c as [[rs m] fl]. unfold step in St. rewrite E in St. discriminate.
  - destruct c as [[rs m] fl]. unfold step in St. rewrite E in St. discriminate.
  - destruct c as [[rs m] fl]. unfold step in St. rewrite E in St. discriminate.
Qed.

Lemma sound_run s calls s1 calls1 : proper_run laddr extern extern_skips addr place sites sig P s calls s1 calls1 ->
  forall D, inv (pc s) D calls ->
  exists D1, careful_run laddr extern extern_skips addr place takes gives P s D s1 D1 /\ inv (pc s1) D1 calls1.
Proof.
  induction 1 as [s calls|s calls s1 calls1 s2 calls2 St K R IH]; intros D I0.
  - exists D. split; [constructor|exact I0].
  - destruct (sound_step s s1 D calls calls1 I0 St K) as [C I1]. destruct (IH _ I1) as (D2 & R2 & I2).
    exists D2. split; [econstructor; eassumption|exact I2].
Qed.
(** What is read next holds the right value. *)
Lemma inv_careful n D calls : inv n D calls -> forall r, In r (uses_at takes P n) -> D r = false.
Proof.
  intros (Vc & Vr & Vv) r Hr. unfold uses_at in Hr. destruct (nth_error P n) as [[i ops| | | | | | |]|] eqn:E; try contradiction.
  unfold view_clean in Vc. rewrite E in Vc. destruct (at_fine n _ E) as (Fu & _ & Fc). apply Vc. destruct i; try (apply Fu; exact Hr).
  destruct ops as [|[] [|]]; try (apply Fu; exact Hr). destruct Hr as [<-|Hr]; [apply Fu; now left|].
  pose proof (Hknown f) as Kf. destruct (find_fn P f); [contradiction|]. destruct Fc as (c & rest & _ & Fk). rewrite Kf in Fk. apply Fk, Hr.
Qed.
(** And whatever else matters there. *)
Lemma inv_matters n D calls : inv n D calls -> forall r, In r (matters sites sig takes top P n calls) -> D r = false.
Proof.
  intros I0 r Hr. unfold matters in Hr. apply in_app_iff in Hr as [Hr|Hr]; [now apply (inv_careful n D calls)|].
  destruct I0 as (Vc & Vr & Vv). unfold view_clean, view_val in *. destruct (nth_error P n) as [e|] eqn:E; [|contradiction].
  assert (K : forall i ops, e = EIns i ops -> has (f_clean (at_ n)) (left (f_val (at_ n))) -> In r (if used_value sites top P calls then [rax] else []) -> D r = false).
  { intros i ops -> F Hu. apply Vc, F. destruct (used_value sites top P calls) eqn:U; [|contradiction]. destruct Hu as [<-|[]].
    replace (f_val (at_ n)) with true; [cbn; auto|]. symmetry. unfold used_value in U. destruct calls as [|m calls]; cbn in Vv.
    - now apply Vv.
    - apply Vv. exact U. }
  pose proof (at_fine n e E) as F. destruct e as [i ops| |f| | | | |]; try contradiction.
  - destruct i; try contradiction.
    + destruct ops as [|[] [|]]; try contradiction. eapply K; [reflexivity|apply F|exact Hr].
    + destruct ops; try contradiction. eapply K; [reflexivity|apply F|exact Hr].
  - apply Vc. now apply in_list_has.
Qed.
End Run.
End Flow.
