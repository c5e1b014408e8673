(** The optimised program follows every careful run of the original. *)
From Coq Require Import ZArith List Bool String Lia.
From Verif Require Import X86 PeepModel PeepSpec PeepExec.
Import ListNotations.
Open Scope Z_scope.
Ltac Zify.zify_post_hook ::= Z.div_mod_to_equations.
Local Arguments Z.mul : simpl never. Local Arguments Z.add : simpl never. Local Arguments Z.sub : simpl never.

(* ------------------------------------------------------------- joined instructions *)

Lemma byte_word v i : 0 <= i < 8 -> byte_of (word v) i = byte_of v i.
Proof.
  intros H. unfold byte_of, word. assert (i = 0 \/ i = 1 \/ i = 2 \/ i = 3 \/ i = 4 \/ i = 5 \/ i = 6 \/ i = 7) as C by lia.
  destruct C as [->|[->|[->|[->|[->|[->|[->| ->]]]]]]]; cbn [Z.mul Z.pow Z.pow_pos Pos.mul Pos.iter];
  match goal with |- context [?a / ?b] => let n := eval vm_compute in b in change b with n end; lia.
Qed.
Lemma store_word m1 m2 a v : mem_same m1 m2 -> mem_same (store m1 a (word v)) (store m2 a v).
Proof.
  intros H x. unfold store. destruct ((a <=? x) && (x <? a + 8)) eqn:E; [|apply H]. apply byte_word. lia.
Qed.
Lemma word_idem v : word (word v) = word v.
Proof. unfold word. now rewrite Z.mod_mod. Qed.

(** The marking after an instruction that drops [r]. *)
Definition dirty (r : reg) (D : reg -> bool) : reg -> bool := fun x => if reg_eqb x r then true else D x.

Section Sim.
Variable laddr : label -> Z.
Lemma join_mov D a r y c c' c1 : exec laddr movq [a; OReg r] c' = Some c1 -> same_but D c c1 ->
  all_clean D (needs movq [OReg r; y]) -> ~ In r (target_regs y) ->
  both (dirty r (settled D movq [OReg r; y])) (exec laddr movq [OReg r; y] c) (exec laddr movq [a; y] c').
Proof.
  destruct c as [[rs m] fl], c' as [[rs' m'] fl']. cbn [exec]. intros E S Cy Ny. change (read (rs, m, fl) (OReg r)) with (Some (rs r)).
  destruct (read (rs', m', fl') a) as [v|]; [|discriminate]. cbn in E. injection E as <-. destruct S as (HR & HM & ->).
  assert (Er : D r = false -> rs r = word v) by (intros Dr; pose proof (HR r Dr) as Er; rewrite rset_get, reg_eqb_refl in Er; exact Er).
  assert (HR' : forall x, D x = false -> x <> r -> rs x = rs' x).
  { intros x Hx Nx. rewrite (HR x Hx), rset_get. destruct (reg_eqb r x) eqn:X; [apply reg_eqb_eq in X; congruence|reflexivity]. }
  destruct y as [d|d|z|l off|q|l|f]; try exact I.
  - cbn. split; [|split; [exact HM|reflexivity]]. intros x Hx. unfold dirty in Hx. cbn in Hx.
    destruct (reg_eqb x r) eqn:Y; [discriminate|].
    rewrite !rset_get. destruct (reg_eqb d x) eqn:X.
    + apply reg_eqb_eq in X. subst x. rewrite reg_eqb_refl in Hx. rewrite (Er Hx), word_idem. reflexivity.
    + apply HR'; [|intros ->; now rewrite reg_eqb_refl in Y].
      destruct (reg_eqb x d) eqn:Z; [apply reg_eqb_eq in Z; subst; now rewrite reg_eqb_refl in X|exact Hx].
  - cbn [write target_regs] in *. destruct (m_deref q && negb (m_indir q)); [|exact I].
    assert (Cq : all_clean D (address_regs q)) by (intros x Hx; apply Cy; right; exact Hx).
    rewrite (Er (Cy r (or_introl eq_refl))).
    assert (Ea : ea rs q = ea rs' q).
    { apply (ea_same (fun x => if reg_eqb x r then true else D x)).
      - intros x Hx. destruct (reg_eqb x r) eqn:X; [discriminate|]. apply HR'; [exact Hx|]. intros ->. now rewrite reg_eqb_refl in X.
      - intros x Hx. destruct (reg_eqb x r) eqn:X; [apply reg_eqb_eq in X; subst; contradiction|auto]. }
    rewrite Ea. split; [|split; [now apply store_word|reflexivity]]. intros x Hx. unfold dirty in Hx. cbn in Hx.
    destruct (reg_eqb x r) eqn:X; [discriminate|]. apply HR'; [exact Hx|]. intros ->. now rewrite reg_eqb_refl in X.
Qed.
Lemma join_push D a r c c' c1 : exec laddr movq [a; OReg r] c' = Some c1 -> same_but D c c1 -> D r = false -> D rsp = false -> r <> rsp ->
  both (dirty r (clear D [rsp])) (exec laddr pushq [OReg r] c) (exec laddr pushq [a] c').
Proof.
  destruct c as [[rs m] fl], c' as [[rs' m'] fl']. cbn [exec]. intros E S Dr Cy Ny. change (read (rs, m, fl) (OReg r)) with (Some (rs r)).
  destruct (read (rs', m', fl') a) as [v|]; [|discriminate]. cbn in E. injection E as <-. destruct S as (HR & HM & ->).
  pose proof (HR r Dr) as Er. rewrite rset_get, reg_eqb_refl in Er. rewrite Er.
  assert (HR' : forall x, D x = false -> x <> r -> rs x = rs' x).
  { intros x Hx Nx. rewrite (HR x Hx), rset_get. destruct (reg_eqb r x) eqn:X; [apply reg_eqb_eq in X; congruence|reflexivity]. }
  cbn. rewrite (HR' rsp Cy) by congruence. split; [|split; [now apply store_word|reflexivity]].
  intros x Hx. unfold dirty, clear in Hx. cbn in Hx.
  rewrite !rset_get. destruct (reg_eqb rsp x) eqn:X; [reflexivity|]. destruct (reg_eqb x r) eqn:Y; [discriminate|].
  apply HR'; [|intros ->; now rewrite reg_eqb_refl in Y].
  change (reg_eqb x rsp) with (reg_eqb rsp x) in Hx. rewrite X in Hx. exact Hx.
Qed.
End Sim.

(* --------------------------------------------------------------------------- places *)

(** What is held back before place [n]. *)
Definition hold (h : option (inst * list operand)) (i : inst) (ops : list operand) : option (inst * list operand) :=
  match merged h i ops with Some new => Some new | None => Some (i, ops) end.
Fixpoint held_at (h : option (inst * list operand)) (P : list event) (n : nat) {struct n} : option (inst * list operand) :=
  match n, P with
  | O, _ => h
  | S n', EIns i ops :: t => held_at (hold h i ops) t n'
  | S n', _ :: t => held_at None t n'
  | S n', [] => None
  end.
Definition joins (h : option (inst * list operand)) (P : list event) (n : nat) : bool :=
  match nth_error (spots h 0 P) n with Some (Some _, _) => true | _ => false end.

Lemma spots_cons h k i ops t : spots h k (EIns i ops :: t) =
  (match merged h i ops with Some _ => (Some (target_reg h), k) | None => (None, (k + held_size h)%nat) end) ::
  spots (hold h i ops) (match merged h i ops with Some _ => k | None => k + held_size h end)%nat t.
Proof. unfold hold. cbn. destruct (merged h i ops); reflexivity. Qed.
Lemma spots_length P : forall h k, List.length (spots h k P) = List.length P.
Proof. induction P as [|e P IH]; intros h k; [reflexivity|]. destruct e; try (cbn; now rewrite IH). rewrite spots_cons. cbn. now rewrite IH. Qed.

(** The mark of a place comes from what is held back before it. *)
Lemma spot_mark P : forall h k n e, nth_error P n = Some e -> exists q,
  nth_error (spots h k P) n = Some (match e with
    | EIns i ops => match merged (held_at h P n) i ops with Some _ => Some (target_reg (held_at h P n)) | None => None end
    | _ => None end, q).
Proof.
  induction P as [|e0 P IH]; intros h k n e H; [destruct n; discriminate|]. destruct n as [|n].
  - injection H as ->. destruct e; try (eexists; reflexivity). rewrite spots_cons. cbn. destruct (merged h i ops); eexists; reflexivity.
  - cbn in H. destruct e0; try (cbn; apply IH; exact H). rewrite spots_cons. cbn. apply IH. exact H.
Qed.

Definition spot_pos (h : option (inst * list operand)) (k : nat) (P : list event) (n : nat) (last : nat) : nat :=
  match nth_error (spots h k P) n with Some (_, q) => q | None => last end.
Definition marked_at (h : option (inst * list operand)) (P : list event) (n : nat) : bool :=
  match nth_error P n with
  | Some (EIns i ops) => match merged (held_at h P n) i ops with Some _ => true | None => false end
  | _ => false
  end.

(** The first place. *)
Lemma first_spot h k P : P <> [] ->
  exists j, nth_error (spots h k P) 0 = Some (j, if marked_at h P 0 then k else (k + held_size h)%nat).
Proof.
  destruct P as [|e P]; [congruence|]. intros _. destruct e; try (eexists; reflexivity). unfold marked_at. cbn.
  destruct (merged h i ops); eexists; reflexivity.
Qed.

Lemma place_next P : forall h k n e q, nth_error P n = Some e -> nth_error (spots h k P) n = Some q ->
  (S n < List.length P)%nat -> exists j,
  nth_error (spots h k P) (S n) = Some (j, if marked_at h P (S n) then snd q else S (snd q)).
Proof.
  induction P as [|e0 P IH]; intros h k n e q H Hq Hl; [destruct n; discriminate|]. destruct n as [|n].
  - injection H as ->. assert (HP : P <> []) by (intros ->; cbn in Hl; lia).
    destruct e as [i ops| | | | | | |].
    1:{ rewrite spots_cons in Hq |- *. cbn in Hq |- *. unfold marked_at. cbn [nth_error held_at]. fold (marked_at (hold h i ops) P 0).
        destruct (first_spot (hold h i ops) (match merged h i ops with Some _ => k | None => (k + held_size h)%nat end) P HP) as [j Ej].
        cbn [nth_error] in Ej. rewrite Ej. exists j. unfold marked_at. cbn [held_at]. injection Hq as <-. unfold hold. destruct (merged h i ops) as [[i' ops']|]; cbn [snd held_size];
        f_equal; f_equal; match goal with |- (if ?c then _ else _) = (if ?d then _ else _) => change d with c; destruct c end; lia. }
    all: injection Hq as <-; cbn; destruct (first_spot None (S (k + held_size h)) P HP) as [j Ej]; cbn in Ej; rewrite Ej; exists j;
      unfold marked_at; cbn; repeat f_equal; cbn [held_size]; destruct P as [|[] ?]; cbn; try lia; try congruence.
    all: destruct i; cbn; lia.
  - cbn in H. destruct e0 as [i ops| | | | | | |].
    1:{ rewrite spots_cons in Hq |- *. cbn in Hq |- *. destruct (IH _ _ _ _ _ H Hq ltac:(cbn in Hl; lia)) as [j Ej]. exists j. cbn in Ej. rewrite Ej. reflexivity. }
    all: cbn in Hq |- *; destruct (IH _ _ _ _ _ H Hq ltac:(cbn in Hl; lia)) as [j Ej]; exists j; cbn in Ej; rewrite Ej; reflexivity.
Qed.

(** What stands at the new place. *)
Lemma place_event P : forall h k n e q, nth_error P n = Some e -> nth_error (spots h k P) n = Some q ->
  marked_at h P (S n) = false -> (match e with EIns _ _ => S n < List.length P | _ => True end)%nat ->
  (k <= snd q)%nat /\ nth_error (peep h P) (snd q - k) = Some (match e with
    | EIns _ _ => match held_at h P (S n) with Some (i', ops') => EIns i' ops' | None => e end
    | _ => e end).
Proof.
  induction P as [|e0 P IH]; intros h k n e q H Hq Hm Hl; [destruct n; discriminate|]. destruct n as [|n].
  - injection H as ->. destruct e as [i ops| | | | | | |].
    1:{ rewrite spots_cons in Hq. injection Hq as <-. cbn [held_at]. cbn in Hl. unfold marked_at in Hm. cbn [nth_error held_at] in Hm.
        assert (Hd : exists i' ops', hold h i ops = Some (i', ops') /\ exists t, peep (Some (i', ops')) P = EIns i' ops' :: t).
        { unfold hold in *. destruct (merged h i ops) as [[i' ops']|]; [exists i', ops'|exists i, ops]; (split; [reflexivity|]);
          (destruct P as [|e1 P]; [cbn in Hl; lia|]); cbn [nth_error] in Hm; destruct e1; cbn [peep written app]; eauto;
          match type of Hm with context [merged ?a ?b ?c] => destruct (merged a b c); [discriminate|] end; eauto. }
        destruct Hd as (i' & ops' & Eh & t & Et). cbn [peep]. unfold hold in Eh |- *. destruct (merged h i ops) as [[i1 ops1]|]; injection Eh as <- <-; cbn [snd].
        - split; [lia|]. rewrite Nat.sub_diag, Et. reflexivity.
        - split; [lia|]. rewrite Et. destruct h as [[? ?]|]; cbn [held_size written app].
          + replace (k + 1 - k)%nat with 1%nat by lia. reflexivity.
          + replace (k + 0 - k)%nat with 0%nat by lia. reflexivity. }
    all: injection Hq as <-; cbn; (split; [lia|]); destruct h as [[? ?]|]; cbn [held_size written app];
      [replace (k + 1 - k)%nat with 1%nat by lia|replace (k + 0 - k)%nat with 0%nat by lia]; reflexivity.
  - cbn in H. destruct e0 as [i ops| | | | | | |].
    1:{ rewrite spots_cons in Hq. cbn [nth_error] in Hq.
        assert (Hl' : (match e with EIns _ _ => S n < List.length P | _ => True end)%nat) by (destruct e; auto; cbn in Hl; lia).
        destruct (IH _ _ _ _ _ H Hq) as [A B]; [exact Hm|exact Hl'|]. cbn [peep held_at].
        unfold hold in *. destruct (merged h i ops) as [new|].
        - split; [exact A|exact B].
        - split; [destruct (held_size h); lia|]. rewrite nth_error_app2 by (destruct h as [[? ?]|]; cbn in *; lia).
          replace (snd q - k - List.length (written h))%nat with (snd q - (k + held_size h))%nat; [exact B|].
          destruct h as [[? ?]|]; cbn; lia. }
    all: cbn [spots nth_error] in Hq;
      assert (Hl' : (match e with EIns _ _ => S n < List.length P | _ => True end)%nat) by (destruct e; auto; cbn in Hl; lia);
      destruct (IH _ _ _ _ _ H Hq) as [A B]; [exact Hm|exact Hl'|]; cbn [peep held_at];
      (split; [lia|]); rewrite nth_error_app2 by (destruct h as [[? ?]|]; cbn in *; lia);
      (replace (snd q - k - List.length (written h))%nat with (S (snd q - S (k + held_size h)))%nat by (destruct h as [[? ?]|]; cbn in *; lia));
      cbn [nth_error]; exact B.
Qed.

(** The end. *)
Lemma place_end P : forall h k n e q, nth_error P n = Some e -> nth_error (spots h k P) n = Some q ->
  S n = List.length P -> match e with EIns _ _ => False | _ => True end ->
  (k + List.length (peep h P) = S (snd q))%nat.
Proof.
  induction P as [|e0 P IH]; intros h k n e q H Hq Hl He; [destruct n; discriminate|].
  assert (Hw : List.length (written h) = held_size h) by (destruct h as [[? ?]|]; reflexivity).
  destruct n as [|n].
  - injection H as ->. destruct P; [|discriminate]. destruct e; try contradiction; injection Hq as <-; cbn [peep snd];
    rewrite app_length, Hw; cbn [List.length]; lia.
  - cbn in H. destruct e0 as [i ops| | | | | | |].
    1:{ rewrite spots_cons in Hq. cbn [nth_error] in Hq. pose proof (IH _ _ _ _ _ H Hq ltac:(cbn in Hl; lia) He) as A.
        cbn [peep]. unfold hold in A. destruct (merged h i ops) as [new|]; [exact A|]. rewrite app_length, Hw. lia. }
    all: cbn [spots nth_error] in Hq; pose proof (IH _ _ _ _ _ H Hq ltac:(cbn in Hl; lia) He) as A; cbn [peep]; rewrite app_length, Hw; cbn [List.length]; lia.
Qed.

Lemma find_label_written h k X l : find_label_from k (written h ++ X) l = find_label_from (k + held_size h) X l.
Proof. destruct h as [[? ?]|]; cbn; f_equal; lia. Qed.
Lemma find_fn_written h k X l : find_fn_from k (written h ++ X) l = find_fn_from (k + held_size h) X l.
Proof. destruct h as [[? ?]|]; cbn; f_equal; lia. Qed.

Lemma find_label_peep l P : forall h k i,
  match find_label_from i P l with
  | Some n => (i <= n)%nat /\ exists q, nth_error (spots h k P) (n - i) = Some (None, q) /\ find_label_from k (peep h P) l = Some q
  | None => find_label_from k (peep h P) l = None
  end.
Proof.
  induction P as [|e P IH]; intros h k i; [reflexivity|].
  assert (Step : forall h' k' j0 X, find_label_from k X l = find_label_from k' (peep h' P) l ->
    spots h k (e :: P) = j0 :: spots h' k' P ->
    match find_label_from (S i) P l with
    | Some n => (i <= n)%nat /\ exists q, nth_error (spots h k (e :: P)) (n - i) = Some (None, q) /\ find_label_from k X l = Some q
    | None => find_label_from k X l = None
    end).
  { intros h' k' j0 X E1 E2. specialize (IH h' k' (S i)). rewrite E1, E2. destruct (find_label_from (S i) P l) as [n|]; [|exact IH].
    destruct IH as (L & q & A & B). split; [lia|]. exists q. replace (n - i)%nat with (S (n - S i)) by lia. split; assumption. }
  destruct e as [i0 ops|l'| | | | | |]; cbn [find_label_from].
  - cbn [peep]. pose proof (spots_cons h k i0 ops P) as E. unfold hold in E. destruct (merged h i0 ops) as [new|]; (eapply Step; [|exact E]); [reflexivity|].
    apply find_label_written.
  - destruct (label_eqb l l') eqn:El.
    + split; [lia|]. rewrite Nat.sub_diag. eexists. split; [reflexivity|]. cbn [peep]. rewrite find_label_written. cbn. now rewrite El.
    + eapply Step; [|reflexivity]. cbn [peep]. rewrite find_label_written. cbn. now rewrite El.
  - eapply Step; [|reflexivity]. cbn [peep]. rewrite find_label_written. reflexivity.
  - eapply Step; [|reflexivity]. cbn [peep]. rewrite find_label_written. reflexivity.
  - eapply Step; [|reflexivity]. cbn [peep]. rewrite find_label_written. reflexivity.
  - eapply Step; [|reflexivity]. cbn [peep]. rewrite find_label_written. reflexivity.
  - eapply Step; [|reflexivity]. cbn [peep]. rewrite find_label_written. reflexivity.
  - eapply Step; [|reflexivity]. cbn [peep]. rewrite find_label_written. reflexivity.
Qed.
Lemma find_fn_peep l P : forall h k i,
  match find_fn_from i P l with
  | Some n => (i <= n)%nat /\ exists q, nth_error (spots h k P) (n - i) = Some (None, q) /\ find_fn_from k (peep h P) l = Some q
  | None => find_fn_from k (peep h P) l = None
  end.
Proof.
  induction P as [|e P IH]; intros h k i; [reflexivity|].
  assert (Step : forall h' k' j0 X, find_fn_from k X l = find_fn_from k' (peep h' P) l ->
    spots h k (e :: P) = j0 :: spots h' k' P ->
    match find_fn_from (S i) P l with
    | Some n => (i <= n)%nat /\ exists q, nth_error (spots h k (e :: P)) (n - i) = Some (None, q) /\ find_fn_from k X l = Some q
    | None => find_fn_from k X l = None
    end).
  { intros h' k' j0 X E1 E2. specialize (IH h' k' (S i)). rewrite E1, E2. destruct (find_fn_from (S i) P l) as [n|]; [|exact IH].
    destruct IH as (L & q & A & B). split; [lia|]. exists q. replace (n - i)%nat with (S (n - S i)) by lia. split; assumption. }
  destruct e as [i0 ops| |l'| | | | |]; cbn [find_fn_from].
  - cbn [peep]. pose proof (spots_cons h k i0 ops P) as E. unfold hold in E. destruct (merged h i0 ops) as [new|]; (eapply Step; [|exact E]); [reflexivity|].
    apply find_fn_written.
  - eapply Step; [|reflexivity]. cbn [peep]. rewrite find_fn_written. reflexivity.
  - destruct (String.eqb l l') eqn:El.
    + split; [lia|]. rewrite Nat.sub_diag. eexists. split; [reflexivity|]. cbn [peep]. rewrite find_fn_written. cbn. now rewrite El.
    + eapply Step; [|reflexivity]. cbn [peep]. rewrite find_fn_written. cbn. now rewrite El.
  - eapply Step; [|reflexivity]. cbn [peep]. rewrite find_fn_written. reflexivity.
  - eapply Step; [|reflexivity]. cbn [peep]. rewrite find_fn_written. reflexivity.
  - eapply Step; [|reflexivity]. cbn [peep]. rewrite find_fn_written. reflexivity.
  - eapply Step; [|reflexivity]. cbn [peep]. rewrite find_fn_written. reflexivity.
  - eapply Step; [|reflexivity]. cbn [peep]. rewrite find_fn_written. reflexivity.
Qed.

(* ------------------------------------------------- the same for a whole program *)

Lemma marked_joined P n : marked_at None P n = joined P n.
Proof.
  unfold marked_at, joined. destruct (nth_error P n) as [e|] eqn:E.
  - destruct (spot_mark P None 0 n e E) as [q ->]. destruct e; try reflexivity. now destruct (merged _ _ _).
  - apply nth_error_None in E. rewrite <- (spots_length P None 0) in E. apply nth_error_None in E. now rewrite E.
Qed.
Lemma spot_here P n e : nth_error P n = Some e -> exists j, nth_error (spots None 0 P) n = Some (j, new_place P n).
Proof. intros H. destruct (spot_mark P None 0 n e H) as [q Eq]. unfold new_place. rewrite Eq. eauto. Qed.

Lemma next_other P n e : nth_error P n = Some e -> match e with EIns _ _ => False | _ => True end ->
  nth_error (optimise P) (new_place P n) = Some e /\ new_place P (S n) = S (new_place P n) /\
  joined P n = false /\ joined P (S n) = false.
Proof.
  intros H He. destruct (spot_here P n e H) as [j Ej].
  assert (Hh : forall h, held_at h P (S n) = None).
  { clear Ej j. revert n H. induction P as [|e0 P IH]; intros n H h; [destruct n; discriminate|].
    destruct n as [|n]; [injection H as ->; destruct e; try contradiction; reflexivity|]. cbn in H.
    destruct e0; apply (IH n H). }
  assert (Hm : marked_at None P (S n) = false).
  { unfold marked_at. rewrite Hh. destruct (nth_error P (S n)) as [[i ops| | | | | | |]|]; try reflexivity. }
  destruct (place_event P None 0 n e _ H Ej Hm) as [_ B]; [destruct e; auto; contradiction|]. cbn [snd] in B. rewrite Nat.sub_0_r in B.
  repeat split.
  - unfold optimise. rewrite B. destruct e; try reflexivity. contradiction.
  - destruct (Nat.lt_ge_cases (S n) (List.length P)) as [L|L].
    + destruct (place_next P None 0 n e _ H Ej L) as [j' E']. rewrite Hm in E'. unfold new_place at 1. rewrite E'. reflexivity.
    + assert (n < List.length P)%nat by (apply nth_error_Some; congruence).
      assert (Hl : S n = List.length P) by lia. pose proof (place_end P None 0 n e _ H Ej Hl He) as A. cbn [snd] in A.
      unfold new_place at 1. replace (nth_error (spots None 0 P) (S n)) with (@None (option (option reg) * nat)); [exact A|].
      symmetry. apply nth_error_None. rewrite spots_length. lia.
  - rewrite <- marked_joined. unfold marked_at. rewrite H. destruct e; try reflexivity. contradiction.
  - rewrite <- marked_joined. exact Hm.
Qed.

Lemma held_next P : forall h n i ops, nth_error P n = Some (EIns i ops) -> held_at h P (S n) = hold (held_at h P n) i ops.
Proof.
  induction P as [|e0 P IH]; intros h n i ops H; [destruct n; discriminate|]. destruct n as [|n]; [injection H as ->; reflexivity|].
  cbn in H. destruct e0; cbn [held_at]; apply (IH _ n i ops H).
Qed.

Lemma next_instr P n i ops : all_written P -> nth_error P n = Some (EIns i ops) -> joined P (S n) = false ->
  exists i' ops', held_at None P (S n) = Some (i', ops') /\ nth_error (optimise P) (new_place P n) = Some (EIns i' ops') /\
  new_place P (S n) = S (new_place P n).
Proof.
  intros W H Hm. destruct (spot_here P n _ H) as [j Ej]. rewrite <- marked_joined in Hm.
  destruct (place_event P None 0 n _ _ H Ej Hm (W n i ops H)) as [_ B]. cbn [snd] in B. rewrite Nat.sub_0_r in B.
  destruct (place_next P None 0 n _ _ H Ej (W n i ops H)) as [j' E']. rewrite Hm in E'.
  rewrite (held_next P None n i ops H) in B |- *. 
  assert (exists i' ops', hold (held_at None P n) i ops = Some (i', ops')) as (i' & ops' & Eh).
  { unfold hold. destruct (merged _ _ _) as [[? ?]|]; eauto. }
  rewrite Eh in B. exists i', ops'. repeat split; [exact Eh|exact B|]. unfold new_place at 1. now rewrite E'.
Qed.
Lemma next_joined P n i ops : nth_error P n = Some (EIns i ops) -> joined P (S n) = true -> new_place P (S n) = new_place P n.
Proof.
  intros H Hm. destruct (spot_here P n _ H) as [j Ej]. rewrite <- marked_joined in Hm.
  assert (L : (S n < List.length P)%nat).
  { unfold marked_at in Hm. apply nth_error_Some. intros E. now rewrite E in Hm. }
  destruct (place_next P None 0 n _ _ H Ej L) as [j' E']. rewrite Hm in E'. unfold new_place at 1. now rewrite E'.
Qed.

Lemma find_label_new P l : match find_label P l with
  | Some n => joined P n = false /\ find_label (optimise P) l = Some (new_place P n)
  | None => find_label (optimise P) l = None end.
Proof.
  pose proof (find_label_peep l P None 0 0) as H. unfold find_label. destruct (find_label_from 0 P l) as [n|]; [|exact H].
  destruct H as (_ & q & A & B). rewrite Nat.sub_0_r in A. unfold joined, new_place. rewrite A. split; [reflexivity|exact B].
Qed.
Lemma find_fn_new P l : match find_fn P l with
  | Some n => joined P n = false /\ find_fn (optimise P) l = Some (new_place P n)
  | None => find_fn (optimise P) l = None end.
Proof.
  pose proof (find_fn_peep l P None 0 0) as H. unfold find_fn. destruct (find_fn_from 0 P l) as [n|]; [|exact H].
  destruct H as (_ & q & A & B). rewrite Nat.sub_0_r in A. unfold joined, new_place. rewrite A. split; [reflexivity|exact B].
Qed.
Lemma old_place_new P q n : old_place P q = Some n -> joined P n = false /\ new_place P n = q.
Proof.
  unfold old_place. intros H. apply find_some in H. destruct H as [_ H]. apply andb_true_iff in H. destruct H as [A B].
  apply Nat.eqb_eq in A. apply negb_true_iff in B. auto.
Qed.

(* ------------------------------------------------------------------------ one step *)

(** Instructions that do more than change registers and memory. *)
Definition control (i : inst) (ops : list operand) : bool :=
  match i, ops with
  | (jmp | jne | jae), [OLab _] | (jmp | call), [OMem _] | call, [OFn _] | ret, [] => true
  | _, _ => false
  end.
Lemma same_but_weaken D D' c1 c2 : (forall r, D' r = false -> D r = false) -> same_but D c1 c2 -> same_but D' c1 c2.
Proof. destruct c1 as [[? ?] ?], c2 as [[? ?] ?]. intros H (A & B & C). repeat split; auto. Qed.

Section Simulation.
Variable laddr : label -> Z.
Variable extern : string -> (reg -> Z) * (Z -> Z) -> option ((reg -> Z) * (Z -> Z)).
Variable extern_skips : string -> bool.
Variable addr : nat -> Z.
Variable place : Z -> option nat.
Variable takes gives : string -> list reg.
Variable P : list event.
Hypothesis fair : extern_fair takes gives extern.
Hypothesis W : all_written P.
Let Q := optimise P.
Let addrP (n : nat) : Z := addr (new_place P n).
Let placeP (w : Z) : option nat := match place w with Some q => old_place P q | None => None end.

Lemma step_data p ad pl n i ops c : nth_error p n = Some (EIns i ops) -> control i ops = false ->
  step laddr extern extern_skips ad pl p (MState n c) =
  match exec laddr i ops c with Some c' => Some (MState (S n) c') | None => None end.
Proof.
  intros H Hc. destruct c as [[rs m] fl]. unfold step. rewrite H. destruct i; try reflexivity;
  destruct ops as [|[] [|]]; try discriminate Hc; reflexivity.
Qed.

(** The two programs are at corresponding places; an instruction held back has not been
    run yet. *)
Definition paired (D : reg -> bool) (s s' : mstate) : Prop :=
  pc s' = new_place P (pc s) /\
  if joined P (pc s)
  then exists i ops c1, held_at None P (pc s) = Some (i, ops) /\ exec laddr i ops (mcore s') = Some c1 /\ same_but D (mcore s) c1
  else same_but D (mcore s) (mcore s').

Lemma joined_shape n : joined P n = true -> exists a b i ops, held_at None P n = Some (movq, [a; b]) /\ nth_error P n = Some (EIns i ops) /\
  ((exists x y, i = movq /\ ops = [x; y] /\ reg_matches b x = true /\ merged (held_at None P n) i ops = Some (movq, [a; y])) \/
   (exists x, i = pushq /\ ops = [x] /\ reg_matches b x = true /\ merged (held_at None P n) i ops = Some (pushq, [a]))).
Proof.
  rewrite <- marked_joined. unfold marked_at. destruct (nth_error P n) as [[i ops| | | | | | |]|] eqn:E; try discriminate.
  destruct (merged (held_at None P n) i ops) as [new|] eqn:M; [|discriminate]. intros _.
  unfold merged in M. destruct (held_at None P n) as [[hi hops]|]; [|discriminate].
  destruct hi; try discriminate. destruct hops as [|a [|b [|]]]; try discriminate.
  exists a, b, i, ops. split; [reflexivity|]. split; [reflexivity|].
  destruct i; try discriminate.
  - destruct ops as [|x [|y [|]]]; try discriminate. destruct (reg_matches b x) eqn:R; [|discriminate]. cbn [andb] in M.
    left. exists x, y. unfold merged. rewrite R. cbn [andb]. destruct (negb (is_mem a && is_mem y)); [|discriminate]. repeat split; reflexivity.
  - destruct ops as [|x [|]]; try discriminate. destruct (reg_matches b x) eqn:R; [|discriminate].
    right. exists x. unfold merged. rewrite R. repeat split; reflexivity.
Qed.
Lemma not_joined_hold n i ops : nth_error P n = Some (EIns i ops) -> joined P n = false ->
  dropped P n = None /\ held_at None P (S n) = Some (i, ops).
Proof.
  intros H J. rewrite (held_next P None n i ops H). rewrite <- marked_joined in J. unfold marked_at in J. rewrite H in J.
  unfold dropped, hold. destruct (spot_mark P None 0 n _ H) as [q ->]. destruct (merged _ _ _); [discriminate|auto].
Qed.
Lemma joined_dropped n : joined P n = true -> dropped P n = target_reg (held_at None P n).
Proof.
  intros J. pose proof J as J'. rewrite <- marked_joined in J. unfold marked_at in J. destruct (nth_error P n) as [[i ops| | | | | | |]|] eqn:E; try discriminate.
  unfold dropped. destruct (spot_mark P None 0 n _ E) as [q ->]. destruct (merged _ _ _); [reflexivity|discriminate].
Qed.

(** What is written for the instruction acts as the instruction does. *)
Lemma sim_exec D n c s' i ops : nth_error P n = Some (EIns i ops) -> control i ops = false -> careful takes P D n ->
  paired D (MState n c) s' ->
  exists i' ops', held_at None P (S n) = Some (i', ops') /\ control i' ops' = false /\
  both (after gives P D n) (exec laddr i ops c) (exec laddr i' ops' (mcore s')).
Proof.
  intros H Hc [Cu Co] [_ Hp]. cbn [pc mcore] in Hp. destruct (joined P n) eqn:J.
  - destruct (joined_shape n J) as (a & b & i1 & ops1 & Eh & E1 & Sh). rewrite H in E1. injection E1 as <- <-.
    destruct Hp as (hi & hops & c1 & Eh' & Ex & Sb). rewrite Eh in Eh'. injection Eh' as <- <-.
    rewrite (held_next P None n i ops H). unfold hold.
    assert (exists r, b = OReg r) as [r ->].
    { destruct b as [r|r| | | | |]; [eauto|exfalso| | | | |]; try (destruct Sh as [(x & y & _ & _ & R & _)|(x & _ & _ & R & _)]; destruct x; discriminate).
      destruct (mcore s') as [[? ?] ?]. cbn [exec] in Ex. destruct (read _ a); discriminate Ex. }
    assert (Ed : dropped P n = Some r) by (rewrite (joined_dropped n J), Eh; reflexivity).
    pose proof (Co r i ops Ed H) as Nr. unfold uses_at in Cu. rewrite H in Cu. unfold after. rewrite H, Ed.
    destruct Sh as [(x & y & -> & -> & R & M)|(x & -> & -> & R & M)]; rewrite M.
    + destruct x as [r'| | | | | |]; try discriminate R. apply reg_eqb_eq in R. subst r'. exists movq, [a; y]. repeat split.
      exact (join_mov laddr D a r y c (mcore s') c1 Ex Sb Cu Nr).
    + destruct x as [r'| | | | | |]; try discriminate R. apply reg_eqb_eq in R. subst r'. exists pushq, [a]. repeat split.
      refine (join_push laddr D a r c (mcore s') c1 Ex Sb (Cu r (or_introl eq_refl)) (Cu rsp (or_intror (or_introl eq_refl))) _).
      intros ->. apply Nr. now left.
  - destruct (not_joined_hold n i ops H J) as [Ed Eh]. exists i, ops. split; [exact Eh|]. split; [exact Hc|].
    assert (Ea : forall r, after gives P D n r = settled D i ops r).
    { intros r. unfold after. rewrite H, Ed. destruct i; try reflexivity. destruct ops as [|[] [|]]; try reflexivity. discriminate Hc. }
    assert (Cu' : all_clean D (needs i ops)).
    { unfold uses_at in Cu. rewrite H in Cu. destruct i; try exact Cu. destruct ops as [|[] [|]]; try exact Cu. discriminate Hc. }
    pose proof (exec_needs laddr D i ops c (mcore s') Hp Cu') as B. unfold both in *.
    destruct (exec laddr i ops c) as [c1|], (exec laddr i ops (mcore s')) as [c2|]; try exact B.
    revert B. apply same_but_weaken. intros r. now rewrite Ea.
Qed.

Lemma paired_goto D D' c c' o s1 o' : same_but D c c' -> (forall r, D' r = false -> D r = false) ->
  (forall n, o = Some n -> joined P n = false /\ o' = Some (new_place P n)) ->
  goto c o = Some s1 -> exists s1', goto c' o' = Some s1' /\ paired D' s1 s1'.
Proof.
  intros S HD Ho G. destruct o as [n|]; [|discriminate]. injection G as <-. destruct (Ho n eq_refl) as [J ->].
  eexists. split; [reflexivity|]. split; [reflexivity|]. cbn [pc mcore]. rewrite J. revert S. now apply same_but_weaken.
Qed.
Lemma place_new w n : placeP w = Some n -> joined P n = false /\ place w = Some (new_place P n).
Proof.
  unfold placeP. destruct (place w) as [q|]; [|discriminate]. intros H. apply old_place_new in H. destruct H as [J <-]. auto.
Qed.
Lemma label_new l n : find_label P l = Some n -> joined P n = false /\ find_label Q l = Some (new_place P n).
Proof. intros H. pose proof (find_label_new P l) as A. rewrite H in A. exact A. Qed.
Lemma target_same D c c' a : same_but D c c' -> all_clean D (address_regs a) -> target c a = target c' a.
Proof.
  destruct c as [[rs m] fl], c' as [[rs' m'] fl']. intros (A & B & _) Ca. unfold target. destruct (m_deref a).
  - rewrite (ea_same D rs rs' a A Ca). now apply load_same.
  - apply A, Ca. now left.
Qed.

Lemma push_word D D' c c' w : same_but D c c' -> D rsp = false -> (forall r, D' r = false -> r <> rsp -> D r = false) ->
  same_but D' (push c w) (push c' w).
Proof.
  destruct c as [[rs m] fl], c' as [[rs' m'] fl']. intros (A & B & C) Hr HD. cbn. rewrite (A rsp Hr). repeat split; [|now apply store_same|exact C].
  intros r Hd. rewrite !rset_get. destruct (reg_eqb rsp r) eqn:E; [reflexivity|]. apply A, HD; [exact Hd|]. intros ->. now rewrite reg_eqb_refl in E.
Qed.

Lemma sim_control D n c s' i ops s1 : nth_error P n = Some (EIns i ops) -> control i ops = true -> careful takes P D n ->
  paired D (MState n c) s' -> step laddr extern extern_skips addrP placeP P (MState n c) = Some s1 ->
  exists s1', step laddr extern extern_skips addr place Q s' = Some s1' /\ paired (after gives P D n) s1 s1'.
Proof.
  intros H Hc [Cu _] [Hpc Hp] St. cbn [pc mcore] in *.
  assert (J : joined P n = false).
  { destruct (joined P n) eqn:J; [|reflexivity]. destruct (joined_shape n J) as (a & b & i1 & ops1 & _ & E1 & Sh). rewrite H in E1. injection E1 as <- <-.
    destruct Sh as [(x & y & -> & -> & _)|(x & -> & -> & _)]; discriminate. }
  rewrite J in Hp. destruct (not_joined_hold n i ops H J) as [Ed Eh].
  assert (J' : joined P (S n) = false).
  { destruct (joined P (S n)) eqn:J'; [|reflexivity]. destruct (joined_shape (S n) J') as (a & b & i1 & ops1 & E1 & _). rewrite Eh in E1. injection E1 as -> ->. discriminate. }
  destruct (next_instr P n i ops W H J') as (i' & ops' & Eh' & EQ & Nx). rewrite Eh in Eh'. injection Eh' as <- <-.
  destruct s' as [q c']. cbn [pc mcore] in *. subst q.
  unfold uses_at in Cu. rewrite H in Cu.
  assert (Ea : forall r, after gives P D n r = match i, ops with
      | call, [OFn f] => match find_fn P f with Some _ => if reg_eqb r rsp then false else D r | None => negb (mem_reg r (gives f)) end
      | _, _ => settled D i ops r end).
  { intros r. unfold after. now rewrite H, Ed. }
  set (D' := after gives P D n) in *. clearbody D'.
  destruct c as [[rs m] fl], c' as [[rs' m'] fl']. unfold step in St |- *. rewrite H in St. fold Q in EQ. rewrite EQ.
  assert (Ef : fl = fl') by apply Hp. subst fl'.
  destruct i; try discriminate Hc; destruct ops as [|o [|]]; try discriminate Hc; try (destruct o; discriminate Hc).
  - (* jmp *) destruct o as [| | | |a|l|]; try discriminate Hc.
    + destruct (m_indir a); [|discriminate]. assert (Ca : all_clean D (address_regs a)) by (intros r Hr; apply Cu; exact Hr).
      rewrite <- (target_same D _ _ a Hp Ca). refine (paired_goto D D' _ _ _ _ _ Hp _ _ St); [intros r; rewrite Ea; exact (fun x => x)|].
      intros n0. apply place_new.
    + refine (paired_goto D D' _ _ _ _ _ Hp _ _ St); [intros r; rewrite Ea; exact (fun x => x)|]. intros n0. apply label_new.
  - (* jne *) destruct o as [| | | | |l|]; try discriminate Hc. destruct fl as [[d s]|]; [|discriminate]. destruct (d =? s).
    + injection St as <-. eexists. split; [reflexivity|]. split; [cbn [pc]; now rewrite Nx|]. cbn [pc mcore]. rewrite J'. revert Hp. apply same_but_weaken. intros r. rewrite Ea. exact (fun x => x).
    + refine (paired_goto D D' _ _ _ _ _ Hp _ _ St); [intros r; rewrite Ea; exact (fun x => x)|]. intros n0. apply label_new.
  - (* jae *) destruct o as [| | | | |l|]; try discriminate Hc. destruct fl as [[d s]|]; [|discriminate]. destruct (s <=? d).
    + refine (paired_goto D D' _ _ _ _ _ Hp _ _ St); [intros r; rewrite Ea; exact (fun x => x)|]. intros n0. apply label_new.
    + injection St as <-. eexists. split; [reflexivity|]. split; [cbn [pc]; now rewrite Nx|]. cbn [pc mcore]. rewrite J'. revert Hp. apply same_but_weaken. intros r. rewrite Ea. exact (fun x => x).
  - (* ret *) assert (Hs : D rsp = false) by (apply Cu; left; reflexivity). destruct Hp as (Hr & Hm & _).
    rewrite <- (Hr rsp Hs). rewrite <- (load_same m m' (rs rsp) Hm).
    refine (paired_goto D' D' _ _ _ _ _ _ (fun _ x => x) _ St); [|intros n0; apply place_new].
    repeat split; [|exact Hm]. intros r. rewrite Ea, !rset_get. intros Hd. destruct (reg_eqb rsp r) eqn:X; [reflexivity|].
    apply Hr. unfold settled in Hd. cbn [existsb sets] in Hd. change (reg_eqb r rsp) with (reg_eqb rsp r) in Hd. rewrite X in Hd. exact Hd.
  - (* call *) assert (Hs : D rsp = false) by (destruct o; try discriminate Hc; apply Cu; left; reflexivity).
    assert (Er : rs rsp = rs' rsp) by now apply Hp.
    destruct o as [| | | |a| |f]; try discriminate Hc.
    + unfold aligned in *. rewrite <- Er. destruct (m_indir a && (rs rsp mod 16 =? 0)); [|discriminate].
      assert (Ca : all_clean D (address_regs a)) by (intros r Hr; apply Cu; right; exact Hr).
      rewrite <- (target_same D _ _ a Hp Ca). unfold call_code in *. change (addrP (S n)) with (addr (new_place P (S n))) in St. rewrite Nx in St.
      refine (paired_goto D' D' _ _ _ _ _ _ (fun _ x => x) _ St); [|intros n0; apply place_new].
      refine (push_word D D' _ _ _ Hp Hs _). intros r. rewrite Ea. cbn. intros Hr Nr. destruct (reg_eqb r rsp) eqn:X; [apply reg_eqb_eq in X; contradiction|]. exact Hr.
    + unfold aligned in *. rewrite <- Er. destruct (rs rsp mod 16 =? 0); [|discriminate]. unfold call_named in *.
      pose proof (find_fn_new P f) as Fn. fold Q in Fn. destruct (find_fn P f) as [p|] eqn:Ef.
      * destruct Fn as [Jp ->]. unfold call_code in *. change (addrP (S n)) with (addr (new_place P (S n))) in St. rewrite Nx in St.
        refine (paired_goto D' D' _ _ _ _ _ _ (fun _ x => x) _ St); [|intros n0 E; injection E as <-; auto].
        refine (push_word D D' _ _ _ Hp Hs _). intros r. rewrite Ea. intros Hr Nr. destruct (reg_eqb r rsp) eqn:X; [apply reg_eqb_eq in X; contradiction|]. exact Hr.
      * rewrite Fn. pose proof (fair f rs m rs' m') as Fa. destruct Hp as (Hr & Hm & _).
        assert (F1 : forall r, In r (rsp :: takes f) -> rs r = rs' r) by (intros r Hi; apply Hr, Cu; exact Hi). specialize (Fa F1 Hm).
        destruct (extern f (rs, m)) as [[rs1 m1]|]; [|discriminate]. destruct (extern f (rs', m')) as [[rs2 m2]|]; [|contradiction].
        destruct Fa as [Fg Fm].
        assert (Sb : same_but D' (rs1, m1, None) (rs2, m2, None)).
        { repeat split; [|exact Fm]. intros r. rewrite Ea. intros X. apply Fg. apply mem_reg_in. now apply negb_false_iff in X. }
        destruct (extern_skips f).
        -- change (addrP (S n)) with (addr (new_place P (S n))) in St. rewrite Nx in St.
           refine (paired_goto D' D' _ _ _ _ _ Sb (fun _ x => x) _ St). intros n0; apply place_new.
        -- injection St as <-. eexists. split; [reflexivity|]. split; [cbn [pc]; now rewrite Nx|]. cbn [pc mcore]. rewrite J'. exact Sb.
Qed.

Lemma sim_step D s s1 s' : careful takes P D (pc s) -> step laddr extern extern_skips addrP placeP P s = Some s1 -> paired D s s' ->
  exists s1', (s1' = s' \/ step laddr extern extern_skips addr place Q s' = Some s1') /\ paired (after gives P D (pc s)) s1 s1'.
Proof.
  intros C St Hp. destruct s as [n c]. cbn [pc] in *. destruct (nth_error P n) as [e|] eqn:E.
  2:{ destruct c as [[rs m] fl]. unfold step in St. rewrite E in St. discriminate. }
  destruct e as [i ops| | | | | | |].
  1:{ destruct (control i ops) eqn:Hc.
      - destruct (sim_control D n c s' i ops s1 E Hc C Hp St) as (s1' & A & B). eauto.
      - destruct (sim_exec D n c s' i ops E Hc C Hp) as (i' & ops' & Eh & Hc' & B).
        rewrite (step_data P addrP placeP n i ops c E Hc) in St. unfold both in B. destruct (exec laddr i ops c) as [c1|]; [|discriminate]. injection St as <-.
        destruct s' as [q c']. cbn [mcore] in B. destruct Hp as [Hq _]. cbn [pc] in Hq. subst q.
        destruct (exec laddr i' ops' c') as [c1'|] eqn:Ex; [|contradiction].
        destruct (joined P (S n)) eqn:J'.
        + exists (MState (new_place P n) c'). split; [now left|]. split; [cbn [pc]; symmetry; exact (next_joined P n i ops E J')|]. cbn [pc mcore]. rewrite J'.
          exists i', ops', c1'. auto.
        + destruct (next_instr P n i ops W E J') as (i2 & ops2 & Eh2 & EQ & Nx). rewrite Eh in Eh2. injection Eh2 as <- <-.
          exists (MState (S (new_place P n)) c1'). split; [right; rewrite (step_data Q addr place _ i' ops' c' EQ Hc'), Ex; reflexivity|].
          split; [cbn [pc]; now rewrite Nx|]. cbn [pc mcore]. rewrite J'. exact B. }
  all: destruct (next_other P n _ E I) as (EQ & Nx & J & J'); destruct Hp as [Hq Hp]; cbn [pc mcore] in *; rewrite J in Hp; destruct s' as [q c']; cbn [pc mcore] in *; subst q;
    destruct c as [[rs m] fl]; unfold step in St; rewrite E in St; try discriminate; injection St as <-; exists (MState (S (new_place P n)) c');
    (split; [right; destruct c' as [[? ?] ?]; unfold step; fold Q in EQ; rewrite EQ; reflexivity|]); (split; [cbn [pc]; now rewrite Nx|]); cbn [pc mcore]; rewrite J'; revert Hp;
    apply same_but_weaken; intros r; unfold after; rewrite E; exact (fun x => x).
Qed.

Lemma sim_run s D s1 D1 : careful_run laddr extern extern_skips addrP placeP takes gives P s D s1 D1 -> forall s', paired D s s' ->
  exists s1', steps laddr extern extern_skips addr place Q s' s1' /\ paired D1 s1 s1'.
Proof.
  induction 1 as [s D|s D s1 s2 D2 C St R IH]; intros s' Hp.
  - exists s'. split; [constructor|exact Hp].
  - destruct (sim_step D s s1 s' C St Hp) as (s1' & A & B). destruct (IH s1' B) as (s2' & A2 & B2). exists s2'. split; [|exact B2].
    destruct A as [->|A]; [exact A2|]. econstructor; eassumption.
Qed.
End Simulation.
