(** The labels of the generated code: each is defined once, and every jump goes to a
    label that is defined. *)
From Coq Require Import ZArith List Bool String Ascii Lia Permutation.
From Verif Require Import X86 GenModel GenStatic GenSlots GenProgram.
Import ListNotations.
Open Scope Z_scope.
Local Arguments Nat.ltb : simpl never. Local Arguments Nat.leb : simpl never.

(* -------------------------------------------------------------------------- counts *)

Lemma label_eqb_spec a b : label_eqb a b = true <-> a = b.
Proof.
  destruct a, b; cbn; try (split; congruence); rewrite ?Nat.eqb_eq, ?String.eqb_eq;
    try (split; congruence).
  rewrite andb_true_iff, Nat.eqb_eq. destruct p, p0; split; try congruence; try (intros []; congruence); auto;
    intros E; injection E as ->; auto.
Qed.
Lemma label_eqb_refl a : label_eqb a a = true.
Proof. now apply label_eqb_spec. Qed.

(** How often a label is defined. *)
Fixpoint lcount (l : label) (c : list event) : nat :=
  match c with
  | [] => O
  | ELabel l' :: r => (if label_eqb l l' then 1 else 0) + lcount l r
  | _ :: r => lcount l r
  end.
(** How often a function is started. *)
Fixpoint fcount (f : string) (c : list event) : nat :=
  match c with
  | [] => O
  | EFn g :: r => (if String.eqb f g then 1 else 0) + fcount f r
  | _ :: r => fcount f r
  end.
Lemma lcount_app l a b : lcount l (a ++ b) = (lcount l a + lcount l b)%nat.
Proof. induction a as [|[] a IH]; cbn; auto. rewrite IH. lia. Qed.
Lemma fcount_app l a b : fcount l (a ++ b) = (fcount l a + fcount l b)%nat.
Proof. induction a as [|[] a IH]; cbn; auto. rewrite IH. lia. Qed.

(** The labels code jumps to. *)
Definition jumps_to (l : label) (c : list event) : Prop := exists i, In (EIns i [OLab l]) c.

(** Code that defines nothing and refers to nothing but the first [k] literals. *)
Definition plain (k : nat) (e : event) : bool :=
  match e with
  | ELabel _ | EFn _ | EAddr _ => false
  | EIns _ (OLab _ :: _) => false
  | EIns _ (OAddr (LLit n) _ :: _) => Nat.ltb n k
  | _ => true
  end.
Lemma plain_mono j k e : (j <= k)%nat -> plain j e = true -> plain k e = true.
Proof.
  intros H. destruct e as [i ops| | | | | | |]; cbn; auto. destruct ops as [|[]]; auto. destruct l; auto.
  rewrite !Nat.ltb_lt. lia.
Qed.
Lemma plains_mono j k c : (j <= k)%nat -> forallb (plain j) c = true -> forallb (plain k) c = true.
Proof. intros H. rewrite !forallb_forall. intros Hc x Hx. eapply plain_mono; eauto. Qed.
Lemma plain_lcount k c l : forallb (plain k) c = true -> lcount l c = O.
Proof.
  induction c as [|e c IH]; [reflexivity|]. cbn. intros H. apply andb_true_iff in H as [He H]. apply IH in H.
  destruct e; auto. discriminate.
Qed.
Lemma plain_fcount k c l : forallb (plain k) c = true -> fcount l c = O.
Proof.
  induction c as [|e c IH]; [reflexivity|]. cbn. intros H. apply andb_true_iff in H as [He H]. apply IH in H.
  destruct e; auto. discriminate.
Qed.
Lemma plain_jumps k c l : forallb (plain k) c = true -> ~ jumps_to l c.
Proof. intros H [i Hi]. rewrite forallb_forall in H. apply H in Hi. discriminate. Qed.
Lemma jumps_app l a b : jumps_to l (a ++ b) <-> jumps_to l a \/ jumps_to l b.
Proof.
  unfold jumps_to. split.
  - intros [i Hi]. apply in_app_iff in Hi as [Hi|Hi]; eauto.
  - intros [[i Hi]|[i Hi]]; exists i; apply in_app_iff; auto.
Qed.

(** Literals are added, each only once. *)
Definition grow (s s' : gst) : Prop :=
  (List.length (g_lits s) <= List.length (g_lits s'))%nat /\ (NoDup (g_lits s) -> NoDup (g_lits s')) /\
  extends (g_lits s) (g_lits s').
Lemma grow_refl s s' : g_lits s' = g_lits s -> grow s s'.
Proof. unfold grow. intros ->. auto using extends_refl. Qed.
Lemma grow_trans a b c : grow a b -> grow b c -> grow a c.
Proof. unfold grow. intros (? & ? & ?) (? & ? & ?). split; [lia|]. split; [auto|eauto using extends_trans]. Qed.

(* ------------------------------------------------------------- a piece of a function *)

(** A label made by newLabel while the counter went from [a] to [b]. *)
Definition made (a b : nat) (l : label) : bool :=
  match l with LGen _ n => Nat.leb a n && Nat.ltb n b | _ => false end.
Definition acount (l : label) (A : list label) : nat := List.length (filter (label_eqb l) A).

(** Code made while going from [s] to [s'] defines the labels [A], made before, and each
    of the labels it made itself at most once; it jumps to labels it defines, to
    [J], or to the code that reports a bad index.  It starts no function.  GC maps get
    new numbers. *)
Record piece (A J : list label) (s : gst) (c : list event) (s' : gst) : Prop := Piece {
  pc_lab : (g_lab s <= g_lab s')%nat;
  pc_pending : Forall (fun l => exists p n, l = LGen p n /\ (n < g_lab s)%nat) A;
  pc_count : forall l, if made (g_lab s) (g_lab s') l then (lcount l c <= 1)%nat else lcount l c = acount l A;
  pc_jumps : forall l, jumps_to l c -> (1 <= lcount l c)%nat \/ In l J \/ l = LIoob;
  pc_fn : forall f, fcount f c = O;
  pc_id : (g_id s <= g_id s')%nat;
  pc_maps : exists new, g_maps s' = new ++ g_maps s /\ NoDup (map fst new) /\
    Forall (fun m => (g_id s <= fst m < g_id s')%nat) new /\
    (forall l, In (EAddr l) c -> l = LNoGc \/ exists n, l = LMap n /\ In n (map fst new));
  pc_lits : grow s s';
  pc_refs : forall i n off ops, In (EIns i (OAddr (LLit n) off :: ops)) c -> (n < List.length (g_lits s'))%nat
}.

Lemma acount_nil l : acount l [] = O.
Proof. reflexivity. Qed.
Lemma acount_app l A B : acount l (A ++ B) = (acount l A + acount l B)%nat.
Proof. unfold acount. now rewrite filter_app, app_length. Qed.
Lemma acount_made A a b l : Forall (fun l => exists p n, l = LGen p n /\ (n < a)%nat) A ->
  made a b l = true -> acount l A = O.
Proof.
  intros HA Hm. unfold acount. induction HA as [|x A (p & n & -> & Hn) _ IH]; [reflexivity|]. cbn.
  destruct (label_eqb l (LGen p n)) eqn:E; [|exact IH]. apply label_eqb_spec in E as ->.
  cbn in Hm. apply andb_true_iff in Hm as [Hm _]. apply Nat.leb_le in Hm. lia.
Qed.

Lemma piece_plain J s c s' : forallb (plain (List.length (g_lits s'))) c = true -> g_lab s' = g_lab s -> g_id s' = g_id s ->
  g_maps s' = g_maps s -> grow s s' -> piece [] J s c s'.
Proof.
  intros Hp H1 H2 H3 H4. split.
  - lia.
  - constructor.
  - intros l. erewrite plain_lcount by eassumption. destruct (made _ _ l); [lia|reflexivity].
  - intros l Hl. eapply plain_jumps in Hl; [destruct Hl|eassumption].
  - intros f. eapply plain_fcount; eassumption.
  - lia.
  - exists []. rewrite H3. split; [reflexivity|]. split; [constructor|]. split; [constructor|].
    intros l Hl. rewrite forallb_forall in Hp. apply Hp in Hl. discriminate.
  - assumption.
  - intros i n off ops Hi. rewrite forallb_forall in Hp. apply Hp in Hi. cbn in Hi. now apply Nat.ltb_lt.
Qed.
Lemma piece_seq A B J s c s1 c' s2 : piece A J s c s1 -> piece B J s1 c' s2 ->
  Forall (fun l => exists p n, l = LGen p n /\ (n < g_lab s)%nat) B -> piece (A ++ B) J s (c ++ c') s2.
Proof.
  intros P1 P2 HB. destruct P1 as [l1 p1 k1 j1 f1 i1 (n1 & e1 & d1 & r1 & a1) t1 q1], P2 as [l2 p2 k2 j2 f2 i2 (n2 & e2 & d2 & r2 & a2) t2 q2].
  split.
  - lia.
  - apply Forall_app; auto.
  - intros l. specialize (k1 l). specialize (k2 l). rewrite lcount_app, acount_app.
    pose proof (acount_made A (g_lab s) (g_lab s2) l p1) as MA.
    pose proof (acount_made B (g_lab s) (g_lab s2) l HB) as MB.
    destruct l; cbn in *; try (rewrite k1, k2; reflexivity).
    destruct (Nat.leb_spec (g_lab s) n), (Nat.ltb_spec n (g_lab s1)), (Nat.leb_spec (g_lab s1) n), (Nat.ltb_spec n (g_lab s2));
      cbn in *; try lia.
    all: specialize (MA eq_refl); specialize (MB eq_refl); lia.
  - intros l Hl. rewrite lcount_app. apply jumps_app in Hl as [Hl|Hl]; [apply j1 in Hl|apply j2 in Hl];
      destruct Hl as [Hl|Hl]; auto; left; lia.
  - intros f. now rewrite fcount_app, f1, f2.
  - lia.
  - exists (n2 ++ n1). rewrite e2, e1, app_assoc. split; [reflexivity|]. rewrite map_app. split.
    + clear -d1 d2 r1 r2. induction n2 as [|[x r] n2 IH]; cbn in *; [exact d1|].
      inversion_clear d2. inversion_clear r2. constructor; [|auto]. rewrite in_app_iff. intros [Hi|Hi]; [auto|].
      apply in_map_iff in Hi as ([y q] & Hy & Hi). rewrite Forall_forall in r1. apply r1 in Hi. cbn in *. lia.
    + split.
      * apply Forall_app. split; eapply Forall_impl; eauto; cbn; intros; lia.
      * intros l Hl. apply in_app_iff in Hl as [Hl|Hl]; [apply a1 in Hl|apply a2 in Hl];
          (destruct Hl as [Hl|(n & -> & Hl)]; [auto|right; exists n; rewrite in_app_iff; auto]).
  - eauto using grow_trans.
  - intros i n off ops Hi. apply in_app_iff in Hi as [Hi|Hi]; [apply q1 in Hi; destruct t2; lia|now apply q2 in Hi].
Qed.
(** The same without pending labels. *)
Lemma piece_seq0 J s c s1 c' s2 : piece [] J s c s1 -> piece [] J s1 c' s2 -> piece [] J s (c ++ c') s2.
Proof. intros H1 H2. apply (piece_seq [] [] J s c s1 c' s2 H1 H2). constructor. Qed.
Lemma piece_new p A J s c s' : piece (LGen p (g_lab s) :: A) J (set_lab S s) c s' ->
  Forall (fun l => exists p n, l = LGen p n /\ (n < g_lab s)%nat) A -> piece A J s (EFlush :: c) s'.
Proof.
  intros [l1 p1 k1 j1 f1 i1 m1 t1 q1] HA. cbn in *. split; auto.
  - lia.
  - intros l. cbn. specialize (k1 l). pose proof (acount_made A (g_lab s) (g_lab s') l HA) as MA.
    unfold acount in *. cbn in k1. destruct (label_eqb l (LGen p (g_lab s))) eqn:E.
    + apply label_eqb_spec in E as ->. cbn in *.
      destruct (Nat.leb_spec (S (g_lab s)) (g_lab s)); [lia|]. cbn in k1.
      destruct (Nat.leb_spec (g_lab s) (g_lab s)); [|lia]. destruct (Nat.ltb_spec (g_lab s) (g_lab s')); [|lia]. cbn.
      specialize (MA ltac:(destruct (Nat.leb_spec (g_lab s) (g_lab s)); [|lia]; destruct (Nat.ltb_spec (g_lab s) (g_lab s')); [|lia]; reflexivity)).
      cbn in k1. rewrite k1. rewrite MA. lia.
    + destruct l; cbn in *; auto. destruct (Nat.leb_spec (S (g_lab s)) n), (Nat.leb_spec (g_lab s) n), (Nat.ltb_spec n (g_lab s')); cbn in *; try lia.
  - intros l [i Hi]. cbn in Hi. destruct Hi as [Hi|Hi]; [discriminate|]. apply j1. exists i. exact Hi.
  - destruct m1 as (new & M1 & M2 & M3 & M4). exists new. split; [exact M1|]. split; [exact M2|]. split; [exact M3|].
    intros l [Hl|Hl]; [discriminate|auto].
  - intros i n off ops [Hi|Hi]; [discriminate|eauto].
Qed.
Lemma piece_label J s l s' : g_lab s' = g_lab s -> g_id s' = g_id s -> g_maps s' = g_maps s -> g_lits s' = g_lits s ->
  (exists p n, l = LGen p n /\ (n < g_lab s)%nat) -> piece [l] J s [ELabel l] s'.
Proof.
  intros H1 H2 H3 H4 Hl. split.
  - lia.
  - constructor; [exact Hl|constructor].
  - intros k. unfold acount. cbn. destruct (label_eqb k l), (made _ _ _); cbn; auto.
  - intros k [i [Hi|[]]]. discriminate.
  - reflexivity.
  - lia.
  - exists []. rewrite H3. split; [reflexivity|]. split; [constructor|]. split; [constructor|].
    intros k [Hk|[]]. discriminate.
  - now apply grow_refl.
  - intros j n off ops [Hj|[]]. discriminate.
Qed.
Lemma piece_jump J s i l s' : g_lab s' = g_lab s -> g_id s' = g_id s -> g_maps s' = g_maps s -> g_lits s' = g_lits s ->
  In l J \/ l = LIoob -> piece [] J s [EIns i [OLab l]] s'.
Proof.
  intros H1 H2 H3 H4 Hl. split.
  - lia.
  - constructor.
  - intros k. cbn. destruct (made _ _ _); [lia|reflexivity].
  - intros k [j [Hj|[]]]. injection Hj as _ ->. auto.
  - reflexivity.
  - lia.
  - exists []. rewrite H3. split; [reflexivity|]. split; [constructor|]. split; [constructor|].
    intros k [Hk|[]]. discriminate.
  - now apply grow_refl.
  - intros j n off ops [Hj|[]]. discriminate.
Qed.
(** A label to jump to that the code itself defines. *)
Lemma piece_close A J l s c s' : piece A (l :: J) s c s' -> In l A -> piece A J s c s'.
Proof.
  intros [l1 p1 k1 j1 f1 i1 m1 t1 q1] Hl. split; auto. intros k Hk. specialize (j1 k Hk) as [H|[[<-|H]|H]]; auto.
  left. specialize (k1 l). assert (HA : (1 <= acount l A)%nat).
  { clear -Hl. induction A as [|x A IH]; [destruct Hl|]. unfold acount in *. cbn. destruct Hl as [->|Hl].
    - rewrite label_eqb_refl. cbn. lia.
    - destruct (label_eqb l x); cbn; auto. }
  destruct (made (g_lab s) (g_lab s') l) eqn:E; [|lia]. pose proof (acount_made A _ _ l p1 E). lia.
Qed.
Lemma piece_weaken A J K s c s' : piece A J s c s' -> (forall l, In l J -> In l K) -> piece A K s c s'.
Proof. intros [l1 p1 k1 j1 f1 i1 m1 t1 q1] H. split; auto. intros k Hk. specialize (j1 k Hk) as [G|[G|G]]; auto. Qed.
(* ---------------------------------------------------------------------- generators *)

Lemma find_lit_none txt l : forall k, find_lit k l txt = None -> ~ In txt l.
Proof.
  induction l as [|x l IH]; intros k H; [auto|]. cbn in H. destruct (list_eq_dec Z.eq_dec x txt); [discriminate|].
  intros [Hx|Hx]; [auto|]. eapply IH; eauto.
Qed.
Lemma string_lit_inv txt k s c s' : string_lit txt k s = Some (c, s') ->
  exists n c' s1, c = EFlush :: c' /\ k (OAddr (LLit n) 8) s1 = Some (c', s') /\
    nth_error (g_lits s1) n = Some txt /\ extends (g_lits s) (g_lits s1) /\ grow s s1 /\
    g_sp s1 = g_sp s /\ g_reg s1 = g_reg s /\ g_roots s1 = g_roots s /\ g_scopes s1 = g_scopes s /\
    g_maps s1 = g_maps s /\ g_id s1 = g_id s /\ g_lab s1 = g_lab s.
Proof.
  intros H. assert (Hg : exists n c' s1, c = EFlush :: c' /\ k (OAddr (LLit n) 8) s1 = Some (c', s') /\
    nth_error (g_lits s1) n = Some txt /\ grow s s1 /\ (s1 = s \/ s1 = set_lits (fun l => l ++ [txt]) s)).
  { unfold string_lit in H. destruct (find_lit 0 (g_lits s) txt) as [n|] eqn:E;
      apply seq_inv in H as (c1 & s1 & c2 & H1 & H2 & ->); apply emit_inv in H1 as [-> ->].
    - apply find_lit_nth in E as [_ E]. rewrite Nat.sub_0_r in E. exists n, c2, s. split; [reflexivity|]. split; [exact H2|]. split; [exact E|].
      split; [now apply grow_refl|auto].
    - exists (List.length (g_lits s)), c2, (set_lits (fun l => l ++ [txt]) s). split; [reflexivity|]. split; [exact H2|].
      split; [cbn; rewrite nth_error_app2, Nat.sub_diag by lia; reflexivity|]. split; [|auto]. split; [|split; [|now exists [txt]]]; cbn.
      + rewrite app_length. lia.
      + intros Hn. apply find_lit_none in E. rewrite <- (rev_involutive (g_lits s ++ [txt])), rev_app_distr. apply NoDup_rev. cbn.
        constructor; [now rewrite <- in_rev|now apply NoDup_rev]. }
  destruct Hg as (n & c' & s1 & -> & H1 & H2 & H3 & [->| ->]); exists n, c'; eexists;
    (split; [reflexivity|]; split; [exact H1|]; split; [exact H2|]; split; [|split; [exact H3|]]);
    try (cbn; repeat split; reflexivity).
  - apply extends_refl.
  - exists [txt]. reflexivity.
Qed.


Definition below (s : gst) (l : label) : Prop := exists p n, l = LGen p n /\ (n < g_lab s)%nat.
(** A generator that writes such a piece. *)
Definition gp (A J : list label) (g : gen) : Prop :=
  forall s c s', Forall (below s) A -> g s = Some (c, s') -> piece A J s c s'.

Lemma gp_seq A B J a b : gp A J a -> gp B J b -> gp (A ++ B) J (seq a b).
Proof.
  intros Ha Hb s c s' HA H. apply seq_inv in H as (c1 & s1 & c2 & H1 & H2 & ->).
  apply Forall_app in HA as [HA HB]. specialize (Ha _ _ _ HA H1). eapply piece_seq; eauto. apply Hb; auto.
  eapply Forall_impl; [|exact HB]. intros l (p & n & -> & Hn). exists p, n. split; [reflexivity|].
  pose proof (pc_lab _ _ _ _ _ Ha). lia.
Qed.
Lemma gp_seq0 A J a b : gp [] J a -> gp A J b -> gp A J (seq a b).
Proof. apply (gp_seq [] A). Qed.
Lemma gp_perm A B J g : Permutation A B -> gp A J g -> gp B J g.
Proof.
  intros Hp Hg s c s' HB H.
  assert (HA : Forall (below s) A) by (eapply Permutation_Forall; [apply Permutation_sym; eassumption|exact HB]).
  destruct (Hg s c s' HA H) as [l1 p1 k1 j1 f1 i1 m1 t1 q1]. split; auto. intros l. specialize (k1 l).
  destruct (made _ _ l); [exact k1|]. rewrite k1. unfold acount.
  clear -Hp. induction Hp; cbn; auto.
  - destruct (label_eqb l x); cbn; auto.
  - destruct (label_eqb l x), (label_eqb l y); cbn; auto.
  - congruence.
Qed.
Lemma gp_new p A J k : (forall l, gp (l :: A) J (k l)) -> gp A J (new_label p k).
Proof.
  intros Hk s c s' HA H. apply new_label_inv in H as (c1 & -> & H). apply piece_new with (p := p); [|exact HA].
  eapply Hk; [|exact H]. constructor.
  - exists p, (g_lab s). split; [reflexivity|]. cbn. lia.
  - eapply Forall_impl; [|exact HA]. intros l (q & n & -> & Hn). exists q, n. cbn. split; [reflexivity|lia].
Qed.
Lemma gp_close A J l g : In l A -> gp A (l :: J) g -> gp A J g.
Proof. intros Hl Hg s c s' HA H. eapply piece_close; eauto. Qed.
Lemma gp_weaken A J K g : gp A J g -> (forall l, In l J -> In l K) -> gp A K g.
Proof. intros Hg Hl s c s' HA H. eapply piece_weaken; eauto. Qed.
Lemma gp_label J l : gp [l] J (emit (ELabel l)).
Proof. intros s c s' HA H. apply emit_inv in H as [-> ->]. apply piece_label; auto. now inversion HA. Qed.
Lemma gp_jump J i l : In l J \/ l = LIoob -> gp [] J (ins i [OLab l]).
Proof. intros Hl s c s' HA H. apply ins_inv in H as [-> ->]. apply piece_jump; auto. Qed.
(** Anything that writes no labels and makes none. *)
Definition quiet (g : gen) : Prop := forall s c s', g s = Some (c, s') ->
  forallb (plain (List.length (g_lits s'))) c = true /\ g_lab s' = g_lab s /\ g_id s' = g_id s /\ g_maps s' = g_maps s /\ grow s s'.
Lemma gp_quiet J g : quiet g -> gp [] J g.
Proof. intros Hg s c s' _ H. apply Hg in H as (? & ? & ? & ? & ?). now apply piece_plain. Qed.
Lemma quiet_seq a b : quiet a -> quiet b -> quiet (seq a b).
Proof.
  intros Ha Hb s c s' H. apply seq_inv in H as (c1 & s1 & c2 & H1 & H2 & ->). apply Ha in H1 as (A1 & A2 & A3 & A4 & A5).
  apply Hb in H2 as (B1 & B2 & B3 & B4 & B5). rewrite forallb_app, (plains_mono _ _ _ (proj1 B5) A1), B1.
  split; [reflexivity|]. split; [congruence|]. split; [congruence|]. split; [congruence|eauto using grow_trans].
Qed.
Lemma quiet_ins i ops : (forall k, plain k (EIns i ops) = true) -> quiet (ins i ops).
Proof. intros He s c s' H. apply ins_inv in H as [-> ->]. cbn [forallb]. rewrite He. auto 10 using grow_refl. Qed.
Lemma quiet_emit e : (forall k, plain k e = true) -> quiet (emit e).
Proof. intros He s c s' H. apply emit_inv in H as [-> ->]. cbn [forallb]. rewrite He. auto 10 using grow_refl. Qed.
Lemma quiet_nop : quiet nop.
Proof. intros s c s' H. apply nop_inv in H as [-> ->]. auto 10 using grow_refl. Qed.
Lemma quiet_panic : quiet panic.
Proof. intros s c s' H. discriminate. Qed.
Lemma quiet_modify f : (forall s, g_lab (f s) = g_lab s /\ g_id (f s) = g_id s /\ g_maps (f s) = g_maps s /\ g_lits (f s) = g_lits s) -> quiet (modify f).
Proof. intros Hf s c s' H. apply modify_inv in H as [-> ->]. destruct (Hf s) as (-> & -> & -> & E). auto 10 using grow_refl. Qed.
Lemma quiet_save r : quiet (save r).
Proof. intros s c s' H. apply save_inv in H as [-> ->]. auto 10 using grow_refl. Qed.
Lemma quiet_restore r : quiet (restore r).
Proof. intros s c s' H. apply restore_inv in H as [-> ->]. auto 10 using grow_refl. Qed.
Lemma quiet_untag k r : quiet (untag_as k r).
Proof. intros s c s' H. apply untag_inv in H as (_ & -> & ->). auto 10 using grow_refl. Qed.
Lemma quiet_tag k r : quiet (tag_as k r).
Proof. intros s c s' H. apply tag_inv in H as (_ & -> & ->). auto 10 using grow_refl. Qed.
Lemma quiet_tag_for k g : (forall z, quiet (g z)) -> quiet (tag_for k g).
Proof. intros Hg s c s' H. apply tag_for_inv in H as (_ & H). eapply Hg; eauto. Qed.
Lemma quiet_displace r d k : (forall m, quiet (k m)) -> quiet (displace r d k).
Proof. intros Hk s c s' H. apply displace_inv in H as (_ & H). eapply Hk; eauto. Qed.
Lemma quiet_with_reg i k : (forall r, quiet (k r)) -> quiet (with_reg i k).
Proof. intros Hk s c s' H. apply with_reg_inv in H as (r & _ & H). eapply Hk; eauto. Qed.
Lemma quiet_string_lit txt i r : quiet (string_lit txt (fun o => ins i [o; OReg r])).
Proof.
  intros s c s' H. apply string_lit_inv in H as (n & c1 & s1 & -> & H & N & [x E] & Gr & _ & _ & _ & _ & E1 & E2 & E3).
  apply ins_inv in H as [-> ->]. split; [|auto].
  cbn. rewrite andb_true_r. apply Nat.ltb_lt. apply nth_error_Some. now rewrite N.
Qed.
Lemma quiet_add_root off t : quiet (add_root off t).
Proof. unfold add_root. destruct (is_pointer t); [apply quiet_modify; auto|apply quiet_nop]. Qed.
Lemma quiet_remove_root off t : quiet (remove_root off t).
Proof.
  intros s c s' H. unfold remove_root in H. destruct (is_pointer t); [destruct (drop_root _ _ _); [|discriminate]|];
    injection H as <- <-; auto 10 using grow_refl.
Qed.
Lemma quiet_register t : quiet (register_in_use t).
Proof. intros s c s' H. unfold register_in_use in H. destruct (g_reg s); [discriminate|]. injection H as <- <-. auto 10 using grow_refl. Qed.
Lemma quiet_at (g : gst -> gen) : (forall s, quiet (g s)) -> quiet (fun s => g s s).
Proof. intros Hg s c s' H. eapply Hg; eauto. Qed.
Lemma quiet_spill ts : forall i, quiet (spill i ts).
Proof.
  induction ts as [|t ts IH]; intros i; cbn [spill]; [apply quiet_nop|].
  apply quiet_seq; [apply IH|]. apply quiet_seq; [apply quiet_with_reg; intros; apply quiet_ins; reflexivity|].
  apply quiet_seq; [apply quiet_modify; auto|]. apply (quiet_at (fun s => add_root (g_sp s * 8) t)). intros. apply quiet_add_root.
Qed.
Lemma quiet_unspill ts : forall i, quiet (unspill i ts).
Proof.
  induction ts as [|t ts IH]; intros i; cbn [unspill]; [apply quiet_nop|].
  apply quiet_seq; [apply quiet_with_reg; intros; apply quiet_ins; reflexivity|].
  apply quiet_seq; [apply (quiet_at (fun s => remove_root (g_sp s * 8) t)); intros; apply quiet_remove_root|].
  apply quiet_seq; [apply quiet_modify; auto|apply IH].
Qed.
Lemma quiet_spill_registers : quiet spill_registers.
Proof.
  apply (quiet_at (fun s => match g_reg s with [] => nop | ts :: _ => spill 0 ts end ;; modify (set_reg (cons [])))).
  intros s. apply quiet_seq; [destruct (g_reg s); [apply quiet_nop|apply quiet_spill]|apply quiet_modify; auto].
Qed.
Lemma quiet_restore_registers : quiet restore_registers.
Proof.
  apply quiet_seq; [apply quiet_modify; auto|].
  intros s c s' H. destruct (g_reg s); [eapply quiet_nop; exact H|eapply quiet_unspill; exact H].
Qed.
Lemma quiet_exit x : quiet (gen_exit x).
Proof.
  unfold gen_exit. apply quiet_seq; [apply quiet_ins; reflexivity|]. apply quiet_seq; [|apply quiet_emit; reflexivity].
  destruct x; repeat apply quiet_seq; apply quiet_ins; reflexivity.
Qed.

Lemma gp_gc_map J : gp [] J gc_map.
Proof.
  intros s c s' _ H. unfold gc_map in H. destruct (g_roots s) as [|r l]; injection H as <- <-.
  - split; cbn.
    + lia.
    + constructor.
    + intros k. destruct (made _ _ k); [lia|reflexivity].
    + intros k [i [Hi|[]]]. discriminate.
    + reflexivity.
    + lia.
    + exists []. split; [reflexivity|]. split; [constructor|]. split; [constructor|].
      intros k [Hk|[]]. injection Hk as <-. auto.
    + now apply grow_refl.
    + intros i n off ops [Hi|[]]. discriminate.
  - split; cbn.
    + lia.
    + constructor.
    + intros k. destruct (made _ _ k); [lia|reflexivity].
    + intros k [i [Hi|[]]]. discriminate.
    + reflexivity.
    + lia.
    + exists [(g_id s, r :: l)]. split; [reflexivity|]. split; [repeat constructor; cbn; auto|]. split; [repeat constructor; cbn; lia|].
      intros k [Hk|[]]. injection Hk as <-. right. exists (g_id s). cbn. auto.
    + now apply grow_refl.
    + intros i n off ops [Hi|[]]. discriminate.
Qed.

Ltac quiet_tac := first
  [ apply quiet_nop | apply quiet_panic | apply quiet_save | apply quiet_restore | apply quiet_untag | apply quiet_tag
  | apply quiet_exit | apply quiet_add_root | apply quiet_register
  | apply quiet_spill_registers | apply quiet_restore_registers
  | apply quiet_seq; quiet_tac
  | apply quiet_ins; reflexivity | apply quiet_emit; reflexivity
  | apply quiet_modify; solve [auto]
  | apply quiet_tag_for; intros; quiet_tac
  | apply quiet_displace; intros; quiet_tac
  | apply quiet_with_reg; intros; quiet_tac
  | apply quiet_string_lit
  | match goal with |- quiet (if ?b then _ else _) => destruct b; quiet_tac end
  | match goal with |- quiet (match ?b with _ => _ end) => destruct b; quiet_tac end
  | match goal with |- quiet (ins (if ?b then _ else _) _) => destruct b; quiet_tac end
  | match goal with |- quiet (ins _ (if ?b then _ else _)) => destruct b; quiet_tac end ].
Ltac gp_tac := first
  [ assumption | apply gp_label | apply gp_gc_map
  | apply gp_quiet; quiet_tac
  | apply gp_jump; cbn; tauto
  | apply gp_seq0; gp_tac
  | match goal with IH : forall ta J, gp [] J (gen_expr _ ?e ta) |- gp [] _ (gen_expr _ ?e _) => apply IH end ].

Lemma gp_args J slot fi args : Forall (fun e => forall ta J, gp [] J (gen_expr slot e ta)) args ->
  forall i, gp [] J (gen_args slot fi i args).
Proof.
  induction 1 as [|e args He _ IH]; intros i; cbn [gen_args]; [apply gp_quiet, quiet_nop|].
  apply gp_seq0; [apply He|]. apply gp_seq0; [|apply IH]. apply gp_quiet. unfold pass_arg. quiet_tac.
Qed.
Lemma gp_finish J fi cl : gp [] J (finish_call fi cl).
Proof.
  unfold finish_call. apply gp_seq0; [gp_tac|]. apply gp_seq0; [gp_tac|].
  apply gp_seq0.
  { apply gp_quiet. apply (quiet_at (fun s => if sp_aligned s then nop else ins subq [OImm 8; OReg rsp])). intros. quiet_tac. }
  apply gp_seq0; [gp_tac|]. apply gp_seq0; [gp_tac|]. apply gp_seq0; [destruct (fi_external fi); gp_tac|].
  apply gp_seq0; [|gp_tac].
  apply gp_quiet. apply (quiet_at (fun s => if sp_aligned s then nop else ins addq [OImm 8; OReg rsp])). intros. quiet_tac.
Qed.
Lemma gp_expr slot e : forall ta J, gp [] J (gen_expr slot e ta).
Proof.
  induction e using expr_ind'; intros ta J;
    try (rewrite gen_expr_call || rewrite gen_expr_call_var || rewrite gen_expr_call_expr); try cbn [gen_expr].
  all: try solve [gp_tac].
  - destruct b; gp_tac.
  - apply gp_seq0; [apply IHe1|]. apply gp_new. intros l1. apply gp_new. intros l2.
    apply (gp_close _ _ l1); [cbn; auto|]. apply (gp_close _ _ l2); [cbn; auto|].
    apply (gp_perm [l1; l2]); [apply perm_swap|].
    apply gp_seq0; [gp_tac|]. apply gp_seq0; [gp_tac|]. apply gp_seq0; [gp_tac|]. apply gp_seq0; [gp_tac|].
    apply (gp_seq [l1] [l2]); [gp_tac|]. apply gp_seq0; gp_tac.
  - apply gp_seq0; [gp_tac|]. apply gp_seq0; [now apply gp_args|apply gp_finish].
  - apply gp_seq0; [gp_tac|]. apply gp_seq0; [now apply gp_args|apply gp_finish].
  - apply gp_seq0; [apply IHe|]. apply gp_seq0; [gp_tac|].
    apply gp_seq0; [gp_tac|]. apply gp_seq0; [now apply gp_args|apply gp_finish].
Qed.

Section Stmts.
Variable slot : nat -> Z.
Variable x : bool.
Lemma gp_list l : Forall (fun st => forall J, gp [] J (gen_stmt slot x st)) l -> forall J, gp [] J (gen_list slot x l).
Proof.
  induction 1 as [|st l Hst _ IH]; intros J; cbn [gen_list]; [apply gp_quiet, quiet_nop|].
  apply gp_seq0; [apply Hst|apply IH].
Qed.
Lemma gp_block l : Forall (fun st => forall J, gp [] J (gen_stmt slot x st)) l -> forall J, gp [] J (gen_block slot x l).
Proof.
  intros Hl J. unfold gen_block. apply gp_seq0; [|apply gp_seq0; [now apply gp_list|]]; apply gp_quiet; intros s c s' H.
  - injection H as <- <-. auto 10 using grow_refl.
  - unfold close_scope in H. destruct (g_scopes s); [discriminate|]. injection H as <- <-. auto 10 using grow_refl.
Qed.
Lemma gp_branches ex bs : Forall (fun b => Forall (fun st => forall J, gp [] J (gen_stmt slot x st)) (snd b)) bs ->
  forall J, In ex J -> gp [] J (gen_branches slot x ex bs).
Proof.
  induction 1 as [|[[c|] b] bs Hb _ IH]; intros J HJ; cbn [gen_branches snd] in *.
  - apply gp_quiet, quiet_nop.
  - apply gp_seq0; [apply gp_expr|]. apply gp_seq0; [|now apply IH]. apply gp_new. intros l.
    apply (gp_close _ _ l); [cbn; auto|].
    apply gp_seq0; [gp_tac|]. apply gp_seq0; [gp_tac|]. apply gp_seq0; [now apply gp_block|].
    apply gp_seq0; [apply gp_jump; cbn; tauto|gp_tac].
  - apply gp_seq0; [now apply gp_block|now apply IH].
Qed.
Lemma gp_assign das l e J : gp [] J (gen_assign slot das l e).
Proof.
  unfold gen_assign. repeat (apply gp_seq0; [first [apply gp_expr|gp_tac]|]). destruct das as [[y t]|]; gp_tac.
Qed.
Lemma gp_stmt st : forall J, gp [] J (gen_stmt slot x st).
Proof.
  induction st using stmt_ind'; intros J.
  - cbn [gen_stmt]. unfold gen_return. apply gp_seq0; [destruct e; [apply gp_expr|gp_tac]|gp_tac].
  - rewrite gen_stmt_if. apply gp_new. intros ex. apply (gp_close _ _ ex); [cbn; auto|].
    apply gp_seq0; [apply gp_branches; [assumption|cbn; auto]|gp_tac].
  - apply gp_assign.
  - apply gp_assign.
  - rewrite gen_stmt_while. apply gp_new. intros l1. apply gp_new. intros l2.
    apply (gp_close _ _ l1); [cbn; auto|]. apply (gp_close _ _ l2); [cbn; auto|].
    apply (gp_seq [l2] [l1]); [gp_tac|]. apply gp_seq0; [apply gp_expr|]. apply gp_seq0; [gp_tac|]. apply gp_seq0; [gp_tac|].
    apply gp_seq0; [now apply gp_block|]. apply gp_seq0; gp_tac.
  - rewrite gen_stmt_block. now apply gp_block.
  - cbn [gen_stmt]. apply gp_expr.
Qed.
Lemma gp_block' l J : gp [] J (gen_block slot x l).
Proof. apply gp_block. apply Forall_forall. intros. apply gp_stmt. Qed.
End Stmts.

(* ------------------------------------------------------------------ whole functions *)

Definition between (a n b : nat) : bool := Nat.leb a n && Nat.ltb n b.
(** The labels an event refers to. *)
Definition refers (e : event) (l : label) : Prop :=
  match e with
  | EAddr k => k = l
  | EIns _ ops => In (OLab l) ops \/ exists off, In (OAddr l off) ops
  | _ => False
  end.
(** Labels every output has, and names of functions. *)
Definition common (s : gst) (l : label) : Prop :=
  l = LIoob \/ l = LNoGc \/ (exists n, l = LLit n /\ (n < List.length (g_lits s))%nat) \/ exists f, l = LName f.

(** A part of the output: it starts the functions [names] and defines the labels [D]
    besides the numbered ones, each at most once; it refers to what it defines itself
    and to what every output has. *)
Record chunk (names : list string) (D : list label) (s : gst) (c : list event) (s' : gst) : Prop := Chunk {
  ck_lab : (g_lab s <= g_lab s')%nat;
  ck_id : (g_id s <= g_id s')%nat;
  ck_lits : grow s s';
  ck_count : forall l, match l with
    | LGen _ n => (lcount l c <= (if between (g_lab s) n (g_lab s') then 1 else 0))%nat
    | LMap n => (lcount l c <= (if between (g_id s) n (g_id s') then 1 else 0))%nat
    | _ => lcount l c = acount l D
    end;
  ck_fn : forall f, fcount f c = count_occ string_dec names f;
  ck_refs : forall e l, In e c -> refers e l -> (1 <= lcount l c)%nat \/ common s' l;
  ck_jumps : forall l, jumps_to l c -> (1 <= lcount l c)%nat \/ l = LIoob
}.

Lemma common_mono s s' l : (List.length (g_lits s) <= List.length (g_lits s'))%nat -> common s l -> common s' l.
Proof. unfold common. intros H [->|[->|[(n & -> & Hn)|[f ->]]]]; eauto 7. right. right. left. exists n. split; [reflexivity|lia]. Qed.
Lemma chunk_seq na nb D E s c s1 c' s2 : chunk na D s c s1 -> chunk nb E s1 c' s2 ->
  chunk (na ++ nb) (D ++ E) s (c ++ c') s2.
Proof.
  intros [l1 i1 t1 k1 f1 r1 j1] [l2 i2 t2 k2 f2 r2 j2]. split; try lia; [eauto using grow_trans| | | |].
  - intros l. specialize (k1 l). specialize (k2 l). rewrite lcount_app, acount_app. destruct l; try lia.
    + unfold between in *. destruct (Nat.leb_spec (g_lab s) n), (Nat.ltb_spec n (g_lab s1)), (Nat.leb_spec (g_lab s1) n), (Nat.ltb_spec n (g_lab s2)); cbn in *; lia.
    + unfold between in *. destruct (Nat.leb_spec (g_id s) n), (Nat.ltb_spec n (g_id s1)), (Nat.leb_spec (g_id s1) n), (Nat.ltb_spec n (g_id s2)); cbn in *; lia.
  - intros f. now rewrite fcount_app, count_occ_app, f1, f2.
  - intros e l He Hl. rewrite lcount_app. apply in_app_iff in He as [He|He].
    + destruct (r1 e l He Hl) as [H|H]; [left; lia|right; eapply common_mono; [apply t2|exact H]].
    + destruct (r2 e l He Hl) as [H|H]; [left; lia|auto].
  - intros l Hl. rewrite lcount_app. apply jumps_app in Hl as [Hl|Hl]; [apply j1 in Hl|apply j2 in Hl];
      (destruct Hl as [Hl|Hl]; [left; lia|auto]).
Qed.

(** What refers to labels in code that is written inside a function. *)
Definition tame (e : event) : bool :=
  match e with
  | EIns _ [OLab _] => true
  | EIns _ (OAddr (LLit _) _ :: o) | EIns _ (OAddr (LName _) _ :: o) =>
      forallb (fun x => match x with OLab _ | OAddr _ _ => false | _ => true end) o
  | EIns _ o => forallb (fun x => match x with OLab _ | OAddr _ _ => false | _ => true end) o
  | _ => true
  end.
Definition tgen (g : gen) : Prop := forall s c s', g s = Some (c, s') -> forallb tame c = true.
Lemma tgen_seq a b : tgen a -> tgen b -> tgen (seq a b).
Proof. intros Ha Hb s c s' H. apply seq_inv in H as (c1 & s1 & c2 & H1 & H2 & ->). rewrite forallb_app, (Ha _ _ _ H1). eapply Hb; eauto. Qed.
Lemma tgen_emit e : tame e = true -> tgen (emit e).
Proof. intros He s c s' H. apply emit_inv in H as [-> ->]. cbn [forallb]. now rewrite He. Qed.
Lemma tgen_new p k : (forall l, tgen (k l)) -> tgen (new_label p k).
Proof. intros Hk s c s' H. apply new_label_inv in H as (c1 & -> & H). cbn. eapply Hk; eauto. Qed.
Lemma tgen_at (g : gst -> gen) : (forall s, tgen (g s)) -> tgen (fun s => g s s).
Proof. intros Hg s c s' H. eapply Hg; eauto. Qed.
Lemma tgen_displace r d k : (forall m, tgen (k m)) -> tgen (displace r d k).
Proof. intros Hk s c s' H. apply displace_inv in H as (_ & H). eapply Hk; eauto. Qed.
Lemma tgen_with_reg i k : (forall r, tgen (k r)) -> tgen (with_reg i k).
Proof. intros Hk s c s' H. apply with_reg_inv in H as (r & _ & H). eapply Hk; eauto. Qed.
Lemma tgen_quiet0 g : (forall s c s', g s = Some (c, s') -> c = []) -> tgen g.
Proof. intros Hg s c s' H. now rewrite (Hg _ _ _ H). Qed.
Lemma tgen_spill ts : forall i, tgen (spill i ts).
Proof.
  induction ts as [|t ts IH]; intros i; cbn [spill]; [now apply tgen_quiet0; intros ? ? ? H; injection H as <-|].
  apply tgen_seq; [apply IH|]. apply tgen_seq; [apply tgen_with_reg; intros; now apply tgen_emit|].
  apply tgen_seq; [apply tgen_quiet0; intros ? ? ? H; now injection H as <-|].
  apply tgen_quiet0. intros s c s' H. now apply add_root_inv in H as [-> _].
Qed.
Lemma tgen_unspill ts : forall i, tgen (unspill i ts).
Proof.
  induction ts as [|t ts IH]; intros i; cbn [unspill]; [now apply tgen_quiet0; intros ? ? ? H; injection H as <-|].
  apply tgen_seq; [apply tgen_with_reg; intros; now apply tgen_emit|].
  apply tgen_seq; [apply tgen_quiet0; intros s c s' H; now apply remove_root_inv in H as [-> _]|].
  apply tgen_seq; [apply tgen_quiet0; intros ? ? ? H; now injection H as <-|apply IH].
Qed.
Ltac tgen_tac := first
  [ apply tgen_seq; tgen_tac
  | apply tgen_emit; reflexivity
  | apply tgen_displace; intros; tgen_tac
  | apply tgen_with_reg; intros; tgen_tac
  | apply tgen_new; intros; tgen_tac
  | let H := fresh in apply tgen_quiet0; intros ? ? ? H; first [now injection H as <-|discriminate H|now apply add_root_inv in H as [-> _]|now apply register_in_use_inv in H as [-> _]]
  | let H := fresh in intros ? ? ? H; first [apply save_inv in H as [-> _]|apply restore_inv in H as [-> _]|apply untag_inv in H as (_ & -> & _)
      |apply tag_inv in H as (_ & -> & _)|apply tag_for_inv in H as (_ & H); apply ins_inv in H as [-> _]
      |apply string_lit_inv in H as (? & ? & ? & -> & H & _); apply ins_inv in H as [-> _]
      |apply gc_map_inv in H as [[? ->] _]|apply spill_registers_inv in H as (-> & _)
      |apply ins_inv in H as [-> _]]; reflexivity
  | match goal with |- tgen (if ?b then _ else _) => destruct b; tgen_tac end
  | match goal with |- tgen (match ?b with _ => _ end) => destruct b; tgen_tac end
  | match goal with |- tgen (ins (if ?b then _ else _) _) => destruct b; tgen_tac end
  | match goal with |- tgen (ins _ [if ?b then _ else _; _]) => destruct b; tgen_tac end
  | solve [auto] ].
Lemma tgen_args slot fi args : Forall (fun e => forall ta, tgen (gen_expr slot e ta)) args ->
  forall i, tgen (gen_args slot fi i args).
Proof.
  induction 1 as [|e args He _ IH]; intros i; cbn [gen_args]; [tgen_tac|].
  apply tgen_seq; [apply He|]. apply tgen_seq; [|apply IH]. unfold pass_arg. tgen_tac.
Qed.
Lemma tgen_spill_registers : tgen spill_registers.
Proof.
  apply (tgen_at (fun s => match g_reg s with [] => nop | ts :: _ => spill 0 ts end ;; modify (set_reg (cons [])))).
  intros s. apply tgen_seq; [destruct (g_reg s); [tgen_tac|apply tgen_spill]|tgen_tac].
Qed.
Lemma tgen_finish fi cl : tgen (finish_call fi cl).
Proof.
  unfold finish_call. apply tgen_seq; [tgen_tac|]. apply tgen_seq; [tgen_tac|].
  apply tgen_seq; [apply (tgen_at (fun s => if sp_aligned s then nop else ins subq [OImm 8; OReg rsp])); intros; tgen_tac|].
  apply tgen_seq; [tgen_tac|]. apply tgen_seq; [tgen_tac|]. apply tgen_seq; [tgen_tac|].
  apply tgen_seq; [apply (tgen_at (fun s => if sp_aligned s then nop else ins addq [OImm 8; OReg rsp])); intros; tgen_tac|].
  unfold restore_registers. apply tgen_seq; [tgen_tac|]. intros s c s' H. destruct (g_reg s); [now injection H as <-|]. now apply tgen_unspill in H.
Qed.
Lemma tgen_expr slot e : forall ta, tgen (gen_expr slot e ta).
Proof.
  induction e using expr_ind'; intros ta;
    try (rewrite gen_expr_call || rewrite gen_expr_call_var || rewrite gen_expr_call_expr); try cbn [gen_expr].
  all: repeat first [apply tgen_finish|apply tgen_seq; [first [solve [auto]|apply tgen_spill_registers|now apply tgen_args|tgen_tac]|]].
  all: tgen_tac.
Qed.
Lemma tgen_stmt slot x st : tgen (gen_stmt slot x st).
Proof.
  induction st using stmt_ind'.
  - cbn [gen_stmt]. unfold gen_return, gen_exit. apply tgen_seq; [destruct e; [apply tgen_expr|tgen_tac]|destruct x; tgen_tac].
  - rewrite gen_stmt_if. apply tgen_new. intros ex. apply tgen_seq; [|tgen_tac].
    induction H as [|[[c|] b] bs Hb _ IH]; cbn [gen_branches snd] in *; [tgen_tac| |].
    + apply tgen_seq; [apply tgen_expr|]. apply tgen_seq; [|exact IH]. apply tgen_new. intros l.
      apply tgen_seq; [tgen_tac|]. apply tgen_seq; [tgen_tac|]. apply tgen_seq; [|tgen_tac].
      unfold gen_block. apply tgen_seq; [tgen_tac|]. apply tgen_seq; [|apply tgen_quiet0; unfold close_scope; intros s c0 s' H; destruct (g_scopes s); [discriminate|now injection H as <-]].
      clear -Hb. induction Hb; cbn [gen_list]; [tgen_tac|now apply tgen_seq].
    + apply tgen_seq; [|exact IH]. 
      unfold gen_block. apply tgen_seq; [tgen_tac|]. apply tgen_seq; [|apply tgen_quiet0; unfold close_scope; intros s c0 s' H; destruct (g_scopes s); [discriminate|now injection H as <-]].
      clear -Hb. induction Hb; cbn [gen_list]; [tgen_tac|now apply tgen_seq].
  - cbn [gen_stmt]. unfold gen_assign. repeat (apply tgen_seq; [first [apply tgen_expr|tgen_tac]|]). tgen_tac.
  - cbn [gen_stmt]. unfold gen_assign. repeat (apply tgen_seq; [first [apply tgen_expr|tgen_tac]|]). tgen_tac.
  - rewrite gen_stmt_while. apply tgen_new. intros l1. apply tgen_new. intros l2.
    apply tgen_seq; [tgen_tac|]. apply tgen_seq; [apply tgen_expr|]. apply tgen_seq; [tgen_tac|]. apply tgen_seq; [tgen_tac|].
    apply tgen_seq; [|tgen_tac].
    unfold gen_block. apply tgen_seq; [tgen_tac|]. apply tgen_seq; [|apply tgen_quiet0; unfold close_scope; intros s c0 s' G; destruct (g_scopes s); [discriminate|now injection G as <-]].
    clear -H. induction H; cbn [gen_list]; [tgen_tac|now apply tgen_seq].
  - rewrite gen_stmt_block. 
    unfold gen_block. apply tgen_seq; [tgen_tac|]. apply tgen_seq; [|apply tgen_quiet0; unfold close_scope; intros s c0 s' G; destruct (g_scopes s); [discriminate|now injection G as <-]].
    clear -H. induction H; cbn [gen_list]; [tgen_tac|now apply tgen_seq].
  - cbn [gen_stmt]. apply tgen_expr.
Qed.

Lemma piece_refs s c s' : piece [] [] s c s' -> forallb tame c = true ->
  exists new, g_maps s' = new ++ g_maps s /\ NoDup (map fst new) /\
    Forall (fun m => (g_id s <= fst m < g_id s')%nat) new /\
    forall e l, In e c -> refers e l ->
      (1 <= lcount l c)%nat \/ common s' l \/ exists n, l = LMap n /\ In n (map fst new).
Proof.
  intros [_ _ _ j1 _ _ (new & N1 & N2 & N3 & N4) _ q1] Ht. exists new. split; [exact N1|]. split; [exact N2|]. split; [exact N3|].
  intros e l He Hr. rewrite forallb_forall in Ht. specialize (Ht e He). destruct e as [i ops| | | | | | |]; cbn in Hr; try tauto.
  - assert (H : (exists j, ops = [OLab l] /\ j = l) \/ exists off r, ops = OAddr l off :: r /\ match l with LLit _ | LName _ => True | _ => False end).
    { assert (K : forall o, forallb (fun x => match x with OLab _ | OAddr _ _ => false | _ => true end) o = true ->
        ~ (In (OLab l) o \/ exists off, In (OAddr l off) o)).
      { intros o Ho [Hi|[off Hi]]; rewrite forallb_forall in Ho; apply Ho in Hi; discriminate. }
      destruct ops as [|o r]; [now apply (K []) in Hr|].
      destruct o; cbn in Ht; try (exfalso; revert Hr; apply K; cbn; exact Ht).
      - destruct l0; cbn in Ht; try discriminate;
          (assert (K' := K r Ht); destruct Hr as [[Hr|Hr]|[off' [Hr|Hr]]]; try discriminate; try (exfalso; apply K'; eauto; fail));
          injection Hr as <- <-; right; eauto.
      - destruct r; cbn in Ht; [|discriminate]. destruct Hr as [[Hr|[]]|[off [Hr|[]]]]; [|discriminate]. injection Hr as <-. left. eauto. }
    destruct H as [(j & -> & ->)|(off & r & -> & H)].
    + destruct (j1 l) as [H|[[]|H]]; [now exists i|auto|]. right. left. left. exact H.
    + right. left. unfold common. destruct l; try tauto; [|eauto]. right. right. left. exists n. split; [reflexivity|]. eapply q1; eauto.
  - subst. destruct (N4 l He) as [->|H]; [right; left; unfold common; auto|auto].
Qed.

Definition map_data (maps : list (nat * list (Z * ty))) : list event :=
  flat_map (fun m => gc_map_data (LMap (fst m)) (map (fun r => fst r / 8) (snd m))) maps.
Lemma lcount_words l offs : lcount l (map tagged_word offs ++ [EFlush]) = O.
Proof. induction offs; cbn; auto. Qed.
Lemma fcount_words l offs : fcount l (map tagged_word offs ++ [EFlush]) = O.
Proof. induction offs; cbn; auto. Qed.
Lemma lcount_maps l maps : lcount l (map_data maps) = acount l (map (fun m => LMap (fst m)) maps).
Proof.
  induction maps as [|m maps IH]; [reflexivity|]. cbn [map_data flat_map]. unfold gc_map_data at 1. cbn [map].
  rewrite lcount_app. change (flat_map _ maps) with (map_data maps). rewrite IH.
  cbn [lcount tagged_word]. rewrite lcount_words. unfold acount. cbn [filter]. destruct (label_eqb l (LMap (fst m))); reflexivity.
Qed.
Lemma fcount_maps f maps : fcount f (map_data maps) = O.
Proof.
  induction maps as [|m maps IH]; [reflexivity|]. cbn [map_data flat_map]. unfold gc_map_data at 1.
  rewrite fcount_app. change (flat_map _ maps) with (map_data maps). rewrite IH. cbn [fcount tagged_word]. now rewrite fcount_words.
Qed.
Lemma refers_maps e l maps : In e (map_data maps) -> ~ refers e l.
Proof.
  unfold map_data, gc_map_data. intros He. apply in_flat_map in He as (m & _ & He).
  destruct He as [<-|[<-|He]]; cbn; auto. apply in_app_iff in He as [He|[<-|[]]]; [|cbn; auto].
  apply in_map_iff in He as (x & <- & _). cbn. auto.
Qed.
Lemma acount_maps_in n (ids : list nat) : NoDup ids ->
  acount (LMap n) (map LMap ids) = if in_dec Nat.eq_dec n ids then 1%nat else O.
Proof.
  unfold acount. induction 1 as [|x ids Hx _ IH]; [reflexivity|]. cbn [map filter label_eqb]. rewrite Nat.eqb_sym.
  destruct (Nat.eqb_spec x n) as [->|Hn]; cbn [List.length]; rewrite IH;
    destruct (in_dec Nat.eq_dec n (_ :: ids)) as [Hi|Hi], (in_dec Nat.eq_dec n ids) as [Hj|Hj]; cbn in Hi; tauto.
Qed.
Lemma acount_maps_other l (ids : list nat) : (forall n, l <> LMap n) -> acount l (map LMap ids) = O.
Proof.
  intros H. unfold acount. induction ids as [|x ids IH]; [reflexivity|]. cbn. destruct (label_eqb l (LMap x)) eqn:E; [|exact IH].
  apply label_eqb_spec in E. now apply H in E.
Qed.

Lemma gp_params J ps : forall i, gp [] J (gen_params i ps).
Proof.
  induction ps as [|[x t] ps IH]; intros i; cbn [gen_params]; [gp_tac|].
  apply gp_seq0; [gp_tac|]. apply gp_seq0; [gp_tac|apply IH].
Qed.
Lemma gp_fields J n : forall i off, gp [] J (gen_fields i off n).
Proof.
  induction n as [|n IH]; intros i off; cbn [gen_fields]; [gp_tac|].
  apply gp_seq0; [gp_tac|]. apply gp_seq0; [gp_tac|apply IH].
Qed.
Lemma tgen_params ps : forall i, tgen (gen_params i ps).
Proof.
  induction ps as [|[x t] ps IH]; intros i; cbn [gen_params]; [tgen_tac|].
  apply tgen_seq; [tgen_tac|]. apply tgen_seq; [tgen_tac|apply IH].
Qed.
Lemma tgen_fields n : forall i off, tgen (gen_fields i off n).
Proof.
  induction n as [|n IH]; intros i off; cbn [gen_fields]; [tgen_tac|].
  apply tgen_seq; [tgen_tac|]. apply tgen_seq; [tgen_tac|apply IH].
Qed.
Lemma tgen_list slot x l : tgen (gen_list slot x l).
Proof. induction l; cbn [gen_list]; [tgen_tac|]. apply tgen_seq; [apply tgen_stmt|assumption]. Qed.
Lemma tgen_block slot x l : tgen (gen_block slot x l).
Proof.
  unfold gen_block. apply tgen_seq; [tgen_tac|]. apply tgen_seq; [apply tgen_list|].
  apply tgen_quiet0; unfold close_scope; intros s c0 s' G; destruct (g_scopes s); [discriminate|now injection G as <-].
Qed.
Lemma tgen_exit x : tgen (gen_exit x).
Proof. unfold gen_exit. destruct x; tgen_tac. Qed.

Lemma chunk_fn alloc fd s c s' : gen_fn alloc fd s = Some (c, s') -> chunk [f_name fd] [] s c s'.
Proof.
  unfold gen_fn. destruct (fn_slots fd) as [temps sl]. intros H.
  apply seq_inv in H as (c1 & s1 & c2 & H1 & H & ->). apply modify_inv in H1 as [-> ->].
  apply seq_inv in H as (c3 & s3 & c4 & H3 & H & ->). unfold gen_entry in H3.
  apply seq_inv in H3 as (c5 & s5 & c6 & H5 & H6 & ->). apply emit_inv in H5 as [-> ->]. apply ins_inv in H6 as [-> ->].
  apply seq_inv in H as (c7 & s7 & c8 & H7 & H & ->). apply modify_inv in H7 as [-> ->].
  apply seq_inv in H as (c9 & s9 & c10 & H9 & H & ->).
  apply seq_inv in H as (c11 & s11 & c12 & H11 & H & ->). injection H as <- <-. change (flat_map _ (g_maps s11)) with (map_data (g_maps s11)).
  set (s0 := set_sp _ _) in H9.
  assert (HP : piece [] [] s0 (c9 ++ c11) s11 /\ forallb tame (c9 ++ c11) = true).
  { rewrite forallb_app, (tgen_params _ _ _ _ _ H9). pose proof (gp_params [] _ _ _ _ _ (Forall_nil _) H9) as P9.
    destruct (f_body fd) as [l|e|tag id descr].
    - apply seq_inv in H11 as (c13 & s13 & c14 & H13 & H14 & ->). split.
      + eapply piece_seq0; [exact P9|]. eapply piece_seq0.
        * eapply gp_block'; [constructor|exact H13].
        * destruct (_ && _) in H14; refine (gp_quiet [] _ _ _ _ _ (Forall_nil _) H14); quiet_tac.
      + rewrite forallb_app, (tgen_block _ _ _ _ _ _ H13). cbn. destruct (_ && _) in H14; [now apply tgen_exit in H14|now injection H14 as <-].
    - unfold gen_return in H11. apply seq_inv in H11 as (c13 & s13 & c14 & H13 & H14 & ->). split.
      + eapply piece_seq0; [exact P9|]. eapply piece_seq0.
        * eapply gp_expr; [constructor|exact H13].
        * refine (gp_quiet [] _ _ _ _ _ (Forall_nil _) H14); quiet_tac.
      + rewrite forallb_app, (tgen_expr _ _ _ _ _ _ H13). now apply tgen_exit in H14.
    - split.
      + eapply piece_seq0; [exact P9|]. assert (T : gp [] [] (gen_constructor alloc (List.length (f_params fd)) tag id descr)); [|exact (T _ _ _ (Forall_nil _) H11)].
        unfold gen_constructor. repeat (apply gp_seq0; [gp_tac|]). destruct tag; [apply gp_seq0; [apply gp_seq0; [gp_tac|apply gp_fields]|gp_tac]|apply gp_seq0; [apply gp_fields|gp_tac]].
      + cbn.
        assert (T : tgen (gen_constructor alloc (List.length (f_params fd)) tag id descr)).
        { unfold gen_constructor. repeat (apply tgen_seq; [tgen_tac|]). apply tgen_seq; [|apply tgen_exit].
          destruct tag; [apply tgen_seq; [tgen_tac|apply tgen_fields]|apply tgen_fields]. }
        exact (T _ _ _ H11). }
  destruct HP as [HP HT]. destruct (piece_refs _ _ _ HP HT) as (new & N1 & N2 & N3 & N4).
  destruct HP as [l1 _ k1 j1 f1 i1 _ t1 _]. cbn in l1, k1, i1, t1, N1, N3. rewrite app_nil_r in N1.
  set (body := c9 ++ c11) in *.
  replace (([] ++ ([EFn (f_name fd)] ++ [EIns enter [OImm (round_temps temps * 8); OImm 0]]) ++ [] ++ c9 ++ c11 ++ EFlush :: EData :: map_data (g_maps s11)))
    with ([EFn (f_name fd); EIns enter [OImm (round_temps temps * 8); OImm 0]] ++ body ++ [EFlush; EData] ++ map_data (g_maps s11))
    by (unfold body; cbn; now rewrite <- !app_assoc).
  assert (CL : forall l, lcount l ([EFn (f_name fd); EIns enter [OImm (round_temps temps * 8); OImm 0]] ++ body ++ [EFlush; EData] ++ map_data (g_maps s11))
     = (lcount l body + lcount l (map_data (g_maps s11)))%nat).
  { intros l. rewrite !lcount_app. cbn. lia. }
  assert (ML : forall l, lcount l (map_data (g_maps s11)) = acount l (map LMap (map fst new))).
  { intros l. rewrite lcount_maps, map_map, N1. reflexivity. }
  split; auto.
  - intros l. rewrite CL, ML. specialize (k1 l). destruct l; cbn [made] in k1; unfold between in *;
      try (rewrite k1, acount_maps_other by discriminate; reflexivity).
    + rewrite acount_maps_other by discriminate. destruct (Nat.leb_spec (g_lab s) n), (Nat.ltb_spec n (g_lab s11)); cbn in *; try lia;
        rewrite k1; reflexivity.
    + rewrite k1. rewrite acount_maps_in by assumption. destruct (in_dec Nat.eq_dec n (map fst new)) as [Hi|Hi]; cbn; [|lia].
      apply in_map_iff in Hi as (m & <- & Hi). rewrite Forall_forall in N3. apply N3 in Hi.
      destruct (Nat.leb_spec (g_id s) (fst m)), (Nat.ltb_spec (fst m) (g_id s11)); cbn; lia.
  - intros f. rewrite !fcount_app, f1, fcount_maps. cbn. rewrite String.eqb_sym. destruct (string_dec (f_name fd) f) as [->|Hn].
    + rewrite String.eqb_refl. reflexivity.
    + apply String.eqb_neq in Hn. rewrite Hn. reflexivity.
  - intros e l He Hl. rewrite CL, ML. apply in_app_iff in He as [[<-|[<-|[]]]|He]; [destruct Hl|cbn in Hl|].
    + destruct Hl as [[Hl|[Hl|[]]]|[off [Hl|[Hl|[]]]]]; discriminate.
    + apply in_app_iff in He as [He|He].
      * destruct (N4 e l He Hl) as [H|[H|(n & -> & Hn)]]; [left; lia|auto|]. left. rewrite acount_maps_in by assumption.
        destruct (in_dec Nat.eq_dec n (map fst new)); [lia|tauto].
      * apply in_app_iff in He as [[<-|[<-|[]]]|He]; [destruct Hl|destruct Hl|]. exfalso. eapply refers_maps; eauto.
  - intros l Hl. rewrite CL. apply jumps_app in Hl as [[i [Hl|[Hl|[]]]]|Hl]; try discriminate.
    apply jumps_app in Hl as [Hl|Hl]; [destruct (j1 l Hl) as [H|[[]|H]]; [left; lia|auto]|].
    apply jumps_app in Hl as [[i [Hl|[Hl|[]]]]|[i Hl]]; try discriminate. exfalso. eapply refers_maps; [exact Hl|]. cbn. eauto.
Qed.
Lemma chunk_nil s : chunk [] [] s [] s.
Proof.
  split; auto.
  - now apply grow_refl.
  - intros l. destruct l; cbn; auto; destruct (between _ _ _); lia.
  - intros e l [].
  - intros l [i []].
Qed.
Lemma chunk_fns alloc fs : forall s c s', gen_fns alloc fs s = Some (c, s') -> chunk (map f_name fs) [] s c s'.
Proof.
  induction fs as [|f fs IH]; intros s c s' H; cbn [gen_fns] in H.
  - apply nop_inv in H as [-> ->]. apply chunk_nil.
  - apply seq_inv in H as (c1 & s1 & c2 & H1 & H & ->). apply chunk_fn in H1. apply IH in H.
    apply (chunk_seq [f_name f] (map f_name fs) [] [] _ _ _ _ _ H1 H).
Qed.

(* ---------------------------------------------------------------- the fixed parts *)

Definition labels (c : list event) : list label :=
  flat_map (fun e => match e with ELabel l => [l] | _ => [] end) c.
Definition fns (c : list event) : list string :=
  flat_map (fun e => match e with EFn f => [f] | _ => [] end) c.
Lemma labels_app a b : labels (a ++ b) = labels a ++ labels b.
Proof. apply flat_map_app. Qed.
Lemma fns_app a b : fns (a ++ b) = fns a ++ fns b.
Proof. apply flat_map_app. Qed.
Lemma lcount_labels l c : lcount l c = acount l (labels c).
Proof.
  induction c as [|e c IH]; [reflexivity|]. destruct e; cbn; auto. rewrite IH. unfold acount. cbn. destruct (label_eqb l l0); reflexivity.
Qed.
Lemma fcount_fns f c : fcount f c = count_occ string_dec (fns c) f.
Proof.
  induction c as [|e c IH]; [reflexivity|]. destruct e; cbn; auto. rewrite IH. destruct (string_dec f0 f) as [->|H].
  - rewrite String.eqb_refl. reflexivity.
  - apply not_eq_sym in H. apply String.eqb_neq in H. rewrite H. reflexivity.
Qed.
Lemma acount_in l D : In l D -> (1 <= acount l D)%nat.
Proof.
  unfold acount. induction D as [|x D IH]; [intros []|]. intros [->|H]; cbn.
  - rewrite label_eqb_refl. cbn. lia.
  - apply IH in H. destruct (label_eqb l x); cbn; lia.
Qed.
Lemma acount_in' l D : (1 <= acount l D)%nat -> In l D.
Proof.
  unfold acount. induction D as [|x D IH]; cbn; [lia|]. destruct (label_eqb l x) eqn:E; [apply label_eqb_spec in E; auto|auto].
Qed.
Lemma acount_nodup l D : NoDup D -> (acount l D <= 1)%nat.
Proof.
  intros H. destruct (acount l D) as [|[|n]] eqn:E; [lia|lia|]. exfalso. revert E. unfold acount.
  induction H as [|x D Hx _ IH]; [discriminate|]. cbn. destruct (label_eqb l x) eqn:Ex; [|exact IH].
  apply label_eqb_spec in Ex as ->. cbn. intros E. injection E as E. apply Hx. apply acount_in'. unfold acount. lia.
Qed.
Definition named (l : label) : bool := match l with LGen _ _ | LMap _ => false | _ => true end.
Lemma acount_named l D : forallb named D = true -> named l = false -> acount l D = O.
Proof.
  intros HD Hl. destruct (acount l D) eqn:E; [reflexivity|]. assert (In l D) by (apply acount_in'; lia).
  rewrite forallb_forall in HD. apply HD in H. congruence.
Qed.
Lemma chunk_of names D s c s' : g_lab s' = g_lab s -> g_id s' = g_id s ->
  grow s s' -> labels c = D -> forallb named D = true -> fns c = names ->
  (forall e l, In e c -> refers e l -> In l D \/ common s' l) ->
  (forall l, ~ jumps_to l c) -> chunk names D s c s'.
Proof.
  intros H1 H2 H3 HD Hn Hf Hr Hj. split; auto; try lia.
  - intros l. rewrite lcount_labels, HD. destruct l; auto; rewrite acount_named by auto; lia.
  - intros f. now rewrite fcount_fns, Hf.
  - intros e l He Hl. rewrite lcount_labels, HD. destruct (Hr e l He Hl); auto using acount_in.
  - intros l Hl. now apply Hj in Hl.
Qed.

Definition plain_code (c : list event) : bool :=
  forallb (fun e => match e with
    | EIns _ o => forallb (fun x => match x with OLab _ | OAddr _ _ => false | _ => true end) o
    | EAddr _ => false | _ => true end) c.
Lemma plain_refers c e l : plain_code c = true -> In e c -> ~ refers e l.
Proof.
  intros Hc He. unfold plain_code in Hc. rewrite forallb_forall in Hc. apply Hc in He. destruct e; cbn; auto; [|discriminate].
  rewrite forallb_forall in He. intros [H|[off H]]; apply He in H; discriminate.
Qed.

Lemma plain_no_jumps c l : plain_code c = true -> ~ jumps_to l c.
Proof. intros Hc [i Hi]. eapply plain_refers; [exact Hc|exact Hi|]. cbn. eauto. Qed.

(** The labels of the GC maps of types, or None where there are no pointers. *)
Fixpoint type_roots (ts : list gtype) (tag : nat) (et : option nat) : option (list (option string * list Z)) :=
  match ts with
  | [] => Some []
  | t :: rest =>
    match t with
    | GString _ | GArray _ _ | GBytes _ | GFunction _ => option_map (cons (None, [])) (type_roots rest 0 et)
    | GStruct name _ fields =>
        match pointer_fields fields with
        | [] => option_map (cons (None, [])) (type_roots rest tag et)
        | offs => option_map (cons (Some ("struct_" ++ name)%string, offs)) (type_roots rest 0 et)
        end
    | GEnum id name _ members =>
        let tag' := match et with Some e => if Nat.eqb e id then tag else O | None => O end in
        match nth_error members tag' with
        | None => None
        | Some (ctag, params) =>
          if negb (ctag =? Z.of_nat tag') then None else
          match pointer_slots 1 params with
          | [] => option_map (cons (None, [])) (type_roots rest (S tag') (Some id))
          | offs => option_map (cons (Some ("enum_" ++ name ++ "_tag_" ++ dec tag')%string, offs)) (type_roots rest (S tag') (Some id))
          end
        end
    end
  end.
Definition root_label (r : option string * list Z) : label := match fst r with Some n => LSym n | None => LNoGc end.
Definition root_data (r : option string * list Z) : list event :=
  match fst r with Some n => gc_map_data (LSym n) (snd r) | None => [] end.
Lemma type_maps_inv ts : forall tag et k s c s', gen_type_maps ts tag et k s = Some (c, s') ->
  exists roots c2, type_roots ts tag et = Some roots /\ k (map root_label roots) s = Some (c2, s') /\
    c = flat_map root_data roots ++ c2.
Proof.
  induction ts as [|t ts IH]; intros tag et k s c s' H; cbn [gen_type_maps type_roots] in *.
  - exists [], c. auto.
  - assert (Hnone : forall tag' et', gen_type_maps ts tag' et' (fun ls => k (LNoGc :: ls)) s = Some (c, s') ->
      exists roots c2, option_map (cons (None, [])) (type_roots ts tag' et') = Some roots /\
        k (map root_label roots) s = Some (c2, s') /\ c = flat_map root_data roots ++ c2).
    { intros tag' et' G. apply IH in G as (roots & c2 & G1 & G2 & ->). exists ((None, []) :: roots), c2. rewrite G1. auto. }
    assert (Hsome : forall n offs tag' et',
      seq (fun s => Some (gc_map_data (LSym n) offs, s)) (gen_type_maps ts tag' et' (fun ls => k (LSym n :: ls))) s = Some (c, s') ->
      exists roots c2, option_map (cons (Some n, offs)) (type_roots ts tag' et') = Some roots /\
        k (map root_label roots) s = Some (c2, s') /\ c = flat_map root_data roots ++ c2).
    { intros n offs tag' et' G. apply seq_inv in G as (c1 & s1 & c3 & G0 & G & ->). injection G0 as <- <-.
      apply IH in G as (roots & c2 & G1 & G2 & ->). exists ((Some n, offs) :: roots), c2. rewrite G1.
      split; [reflexivity|]. split; [exact G2|]. cbn [flat_map root_data fst snd]. now rewrite app_assoc. }
    destruct t as [name txt fields|id name txt members| | | |]; auto.
    + destruct (pointer_fields fields); [auto|]. apply Hsome, H.
    + destruct (nth_error members _) as [[ctag ps]|]; [|discriminate]. destruct (negb _); [discriminate|].
      destruct (pointer_slots 1 ps); [auto|]. apply Hsome, H.
Qed.
Lemma type_roots_length ts : forall tag et roots, type_roots ts tag et = Some roots -> List.length roots = List.length ts.
Proof.
  induction ts as [|t ts IH]; intros tag et roots H; cbn [type_roots] in H; [now injection H as <-|].
  assert (K : forall x tag et, option_map (cons x) (type_roots ts tag et) = Some roots -> List.length roots = S (List.length ts)).
  { intros x tag' et' G. destruct (type_roots ts tag' et') eqn:E; [|discriminate]. injection G as <-. cbn. eauto. }
  destruct t; try (eapply K; exact H).
  - destruct (pointer_fields fields); eapply K; exact H.
  - destruct (nth_error members _) as [[ctag ps]|]; [|discriminate]. destruct (negb _); [discriminate|].
    destruct (pointer_slots 1 ps); eapply K; exact H.
Qed.

(** The typeInfo values. *)
Lemma infos_inv ts : forall i roots s c s', gen_infos i ts roots s = Some (c, s') ->
  g_lab s' = g_lab s /\ g_id s' = g_id s /\ grow s s' /\
  labels c = map info_label (List.seq i (List.length ts)) /\ fns c = [] /\
  (forall e l, In e c -> refers e l -> In l roots \/ common s' l) /\ forall l, ~ jumps_to l c.
Proof.
  induction ts as [|t ts IH]; intros i roots s c s' H; cbn [gen_infos] in H.
  - assert (H0 : c = [] /\ s' = s) by (destruct roots; now apply nop_inv in H). destruct H0 as [-> ->].
    do 2 (split; [reflexivity|]). split; [now apply grow_refl|]. do 2 (split; [reflexivity|]). split; [intros e l []|intros l [j []]].
  - destruct roots as [|r roots]; [discriminate|].
    apply seq_inv in H as (c1 & s1 & c2 & H1 & H & ->). apply emit_inv in H1 as [-> ->].
    apply seq_inv in H as (c3 & s3 & c4 & H3 & H & ->). apply emit_inv in H3 as [-> ->].
    apply seq_inv in H as (c5 & s5 & c6 & H5 & H & ->).
    apply string_lit_inv in H5 as (n & c7 & s7 & -> & H7 & N & _ & Gr & _ & _ & _ & _ & _ & E2 & E3).
    assert (Hn : (n < List.length (g_lits s7))%nat) by (apply nth_error_Some; rewrite N; discriminate).
    assert (S7 : s5 = s7 /\ labels c7 = [] /\ fns c7 = [] /\ forall e l, In e c7 -> refers e l -> (l = r \/ l = LLit n) /\ forall i o, e <> EIns i o).
    { cbn [lit_label] in H7.
      destruct t; ginv1 H7; subst; (split; [reflexivity|]; split; [reflexivity|]; split; [reflexivity|]);
        cbn; intros e l He Hr; repeat (destruct He as [<-|He]); cbn in Hr; try tauto; subst; (split; [auto|discriminate]). }
    destruct S7 as (-> & L7 & F7 & R7). apply IH in H as (A1 & A2 & A3 & A4 & A5 & A6 & A7).
    split; [congruence|]. split; [congruence|]. split; [eauto using grow_trans|]. split; [|split; [|split]].
    + change (labels (([tagged_word 2]) ++ [ELabel (info_label i)] ++ (EFlush :: c7) ++ c6)) with (info_label i :: labels (c7 ++ c6)).
      rewrite labels_app, L7, A4. reflexivity.
    + change (fns (([tagged_word 2]) ++ [ELabel (info_label i)] ++ (EFlush :: c7) ++ c6)) with (fns (c7 ++ c6)).
      rewrite fns_app, F7, A5. reflexivity.
    + intros e l He Hr. apply in_app_iff in He as [[<-|[]]|He]; [destruct Hr|].
      apply in_app_iff in He as [[<-|[]]|He]; [destruct Hr|]. apply in_app_iff in He as [[<-|He]|He]; [destruct Hr| |].
      * destruct (R7 e l He Hr) as [[->| ->] _]; [left; cbn; auto|]. right. right. right. left. exists n. split; [reflexivity|].
        destruct A3. lia.
      * destruct (A6 e l He Hr); auto. left. now right.
    + intros l Hl. do 2 (apply jumps_app in Hl as [[j [Hl|[]]]|Hl]; [discriminate|]). apply jumps_app in Hl as [[j [Hl|Hl]]|Hl]; [discriminate| |now apply A7 in Hl].
      destruct (R7 _ l Hl) as [_ N7]; [cbn; auto|]. exact (N7 _ _ eq_refl).
Qed.
Lemma labels_words offs : labels (map tagged_word offs ++ [EFlush]) = [].
Proof. induction offs; cbn; auto. Qed.
Lemma labels_roots roots : labels (flat_map root_data roots) = filter (fun l => negb (label_eqb l LNoGc)) (map root_label roots).
Proof.
  induction roots as [|[[n|] offs] roots IH]; [reflexivity| |exact IH].
  cbn [flat_map]. rewrite labels_app, IH. unfold root_data. cbn [fst snd]. unfold gc_map_data.
  change (labels (ELabel (LSym n) :: tagged_word (Z.of_nat (List.length offs)) :: map tagged_word offs ++ [EFlush]))
    with (LSym n :: labels (map tagged_word offs ++ [EFlush])). rewrite labels_words. reflexivity.
Qed.
Lemma fns_roots roots : fns (flat_map root_data roots) = [].
Proof.
  induction roots as [|[[n|] offs] roots IH]; [reflexivity| |exact IH]. cbn [flat_map]. rewrite fns_app, IH. cbn.
  rewrite app_nil_r. clear. induction offs; cbn; auto.
Qed.
Lemma refers_roots roots e l : In e (flat_map root_data roots) -> ~ refers e l.
Proof.
  intros He. apply in_flat_map in He as ([[n|] offs] & _ & He); [|destruct He]. cbn in He.
  destruct He as [<-|[<-|He]]; cbn; auto. apply in_app_iff in He as [He|[<-|[]]]; [|cbn; auto].
  apply in_map_iff in He as (x & <- & _). cbn. auto.
Qed.

(** The labels of the type information. *)
Definition map_labels (ts : list gtype) : list label :=
  match type_roots ts 0 None with
  | Some roots => filter (fun l => negb (label_eqb l LNoGc)) (map root_label roots)
  | None => []
  end.
Definition table_labels (ts : list gtype) : list label :=
  map_labels ts ++ map info_label (List.seq 0 (List.length ts)) ++ [LSym "typeInfoArray"].
Lemma map_labels_named ts : forallb named (map_labels ts) = true.
Proof.
  unfold map_labels. destruct (type_roots ts 0 None) as [roots|]; [|reflexivity]. rewrite forallb_forall.
  intros l Hl. apply filter_In in Hl as [Hl _]. apply in_map_iff in Hl as ([[n|] offs] & <- & _); reflexivity.
Qed.
Lemma infos_named n : forall i, forallb named (map info_label (List.seq i n)) = true.
Proof. induction n; intros i; cbn; auto. Qed.
Lemma labels_infos n : forall m, labels (map (fun i => EAddr (info_label i)) (List.seq m n)) = [].
Proof. induction n; intros m; cbn; auto. Qed.
Lemma fns_infos n : forall m, fns (map (fun i => EAddr (info_label i)) (List.seq m n)) = [].
Proof. induction n; intros m; cbn; auto. Qed.
Lemma chunk_table ts s c s' : gen_type_table ts s = Some (c, s') -> chunk ["typeInfoTable"%string] (table_labels ts) s c s'.
Proof.
  intros H. unfold gen_type_table in H. apply seq_inv in H as (c1 & s1 & c2 & H1 & H & ->). apply emit_inv in H1 as [-> ->].
  apply seq_inv in H as (c3 & s3 & c4 & H3 & H & ->). apply type_maps_inv in H3 as (roots & c5 & R1 & R2 & ->).
  apply infos_inv in R2 as (A1 & A2 & A3 & A4 & A5 & A6 & A7).
  apply seq_inv in H as (c7 & s7 & c8 & H7 & H & ->). unfold gen_info_array in H7.
  apply seq_inv in H7 as (c9 & s9 & c10 & H9 & H7 & ->). apply emit_inv in H9 as [-> ->].
  apply seq_inv in H7 as (c9 & s9 & c10' & H9 & H7 & ->). apply emit_inv in H9 as [-> ->].
  apply seq_inv in H7 as (c9 & s9 & c11 & H9 & H7 & ->). apply emit_inv in H9 as [-> ->]. injection H7 as <- <-.
  assert (H8 : c8 = [EFlush; EFn "typeInfoTable"; EIns enter [OImm (round_temps 0 * 8); OImm 0];
                     EIns movabs [OAddr (LSym "typeInfoArray") 0; OReg rax]; EIns leave []; EIns ret []; EFlush] /\ s' = s3).
  { unfold gen_entry, gen_exit in H. ginv1 H. subst. auto. }
  destruct H8 as [-> ->]. apply chunk_of; auto 10 using grow_refl.
  - rewrite !labels_app. unfold table_labels, map_labels. rewrite R1, labels_roots, A4. cbn [app labels flat_map].
    rewrite <- app_assoc. f_equal. f_equal. cbn. f_equal.
    rewrite labels_infos. reflexivity.
  - unfold table_labels. rewrite !forallb_app, map_labels_named, infos_named. reflexivity.
  - rewrite !fns_app, fns_roots, A5. cbn.
    rewrite fns_infos. reflexivity.
  - intros e l He Hr. unfold table_labels. rewrite !in_app_iff.
    apply in_app_iff in He as [[<-|[]]|He]; [destruct Hr|].
    apply in_app_iff in He as [He|He].
    + apply in_app_iff in He as [He|He]; [exfalso; eapply refers_roots; eauto|].
      destruct (A6 e l He Hr) as [Hi|Hi]; [|auto]. apply in_map_iff in Hi as (r & <- & Hi). destruct r as [[n|] offs].
      * left. left. unfold map_labels. rewrite R1. apply filter_In. split; [|reflexivity]. apply in_map_iff. eauto.
      * right. unfold common. auto.
    + apply in_app_iff in He as [He|He].
      * destruct He as [<-|He]; [destruct Hr|]. destruct He as [<-|He]; [destruct Hr|]. destruct He as [<-|He]; [destruct Hr|].
        apply in_map_iff in He as (j & <- & Hj). cbn in Hr. subst l. left. right. left. now apply in_map.
      * repeat (destruct He as [<-|He]; [cbn in Hr; try tauto; try (destruct Hr as [Hr|[? Hr]]; repeat destruct Hr as [Hr|Hr]; try discriminate; try tauto)|]); [|destruct He].
        injection Hr as <- <-. left. right. right. cbn. auto.
  - intros l Hl. apply jumps_app in Hl as [[j [Hl|[]]]|Hl]; [discriminate|]. apply jumps_app in Hl as [Hl|Hl].
    + apply jumps_app in Hl as [[j Hl]|Hl]; [|now apply A7 in Hl]. eapply refers_roots; [exact Hl|]. cbn. eauto.
    + apply jumps_app in Hl as [[j Hl]|[j Hl]].
      * do 3 (destruct Hl as [Hl|Hl]; [discriminate|]). apply in_map_iff in Hl as (? & Hl & _). discriminate.
      * repeat (destruct Hl as [Hl|Hl]; [discriminate|]). destruct Hl.
Qed.

Lemma chunk_routines ioob entry ts s c s' : gen_routines ioob entry ts s = Some (c, s') ->
  chunk routine_names ([LIoob; LNoGc] ++ table_labels ts) s c s'.
Proof.
  intros H.
  assert (E : exists c1 c2, c = c1 ++ c2 ++ [EFlush] /\ gen_type_table ts s = Some (c2, s') /\
    labels c1 = [LIoob; LNoGc] /\ fns c1 = removelast routine_names /\ plain_code c1 = true).
  { unfold gen_routines in H.
    repeat match type of H with
    | seq (gen_type_table _) _ _ = _ => fail 1
    | seq _ _ _ = Some _ =>
        let c1 := fresh "c" in let s1 := fresh "s" in let c2 := fresh "c" in let H1 := fresh "H" in let H2 := fresh "H" in
        apply seq_inv in H as (c1 & s1 & c2 & H1 & H2 & ->);
        unfold gen_read, gen_write, gen_ioob, gen_frame_pointer, gen_unsafe, gen_to_tagged, gen_to_untagged, gen_asm_entrypoint, gen_no_gc, gen_entry, gen_exit in H1;
        change (8 =? 1) with false in H1; change (1 =? 1) with true in H1; cbv iota in H1; ginv1 H1; subst; rename H2 into H
    end.
    apply seq_inv in H as (ct & st & cf & Ht & Hf & ->). apply emit_inv in Hf as [-> ->].
    eexists _, ct. rewrite !app_assoc. split; [reflexivity|]. split; [exact Ht|]. split; [reflexivity|]. split; reflexivity. }
  destruct E as (c1 & c2 & -> & H2 & L1 & F1 & P1).
  apply chunk_table in H2.
  assert (C1 : chunk (removelast routine_names) [LIoob; LNoGc] s c1 s).
  { apply chunk_of; auto 10 using grow_refl. intros e l He Hr. exfalso. eapply plain_refers; eauto. intros l. now apply plain_no_jumps. }
  assert (C3 : chunk [] [] s' [EFlush] s').
  { apply chunk_of; auto 10 using grow_refl. intros e l [<-|[]] []. intros l [j [Hl|[]]]; discriminate. }
  pose proof (chunk_seq _ _ _ _ _ _ _ _ _ C1 (chunk_seq _ _ _ _ _ _ _ _ _ H2 C3)) as C. rewrite !app_nil_r in C. exact C.
Qed.

Lemma lits_inv unq l : forall n s c s', gen_lits unq n l s = Some (c, s') ->
  s' = s /\ labels c = map LLit (List.seq n (List.length l)) /\ fns c = [] /\ plain_code c = true.
Proof.
  induction l as [|x l IH]; intros n s c s' H; cbn [gen_lits] in H.
  - apply nop_inv in H as [-> ->]. auto.
  - destruct (unq x); [|discriminate].
    repeat match type of H with
    | seq (emit _) _ _ = Some _ =>
        let c1 := fresh "c" in let s1 := fresh "s" in let c2 := fresh "c" in let H1 := fresh "H" in let H2 := fresh "H" in
        apply seq_inv in H as (c1 & s1 & c2 & H1 & H2 & ->); apply emit_inv in H1 as [-> ->]; rename H2 into H
    end.
    apply IH in H as (-> & A1 & A2 & A3). split; [reflexivity|]. rewrite !labels_app, !fns_app. cbn.
    rewrite A1, A2. auto.
Qed.
Definition literal_labels (s : gst) : list label := map LLit (List.seq 0 (List.length (g_lits s))).
Lemma chunk_flush unq s c s' : gen_flush unq s = Some (c, s') -> s' = s /\ chunk [] (literal_labels s) s c s'.
Proof.
  unfold gen_flush. intros H. apply seq_inv in H as (c1 & s1 & c2 & H1 & H & ->). apply emit_inv in H1 as [-> ->].
  apply lits_inv in H as (-> & A1 & A2 & A3). split; [reflexivity|]. apply chunk_of; auto 10 using grow_refl.
  - unfold literal_labels. clear. generalize 0%nat. induction (List.length (g_lits s)) as [|k IH]; intros m; cbn; auto.
  - intros e l [<-|He] Hr; [destruct Hr|]. exfalso. eapply plain_refers; eauto.
  - intros l [j [Hl|Hl]]; [discriminate|]. exact (plain_no_jumps _ l A3 (ex_intro _ j Hl)).
Qed.

(** The whole output. *)
Lemma chunk_program unq alloc ioob entry ts prog s c s' : gen_program unq alloc ioob entry ts prog s = Some (c, s') ->
  chunk (map f_name prog ++ routine_names) (([LIoob; LNoGc] ++ table_labels ts) ++ literal_labels s') s c s'.
Proof.
  unfold gen_program. intros H. apply seq_inv in H as (c1 & s1 & c2 & H1 & H & ->).
  apply seq_inv in H as (c3 & s3 & c4 & H3 & H & ->). apply chunk_fns in H1. apply chunk_routines in H3.
  apply chunk_flush in H as [-> H]. pose proof (chunk_seq _ _ _ _ _ _ _ _ _ H1 (chunk_seq _ _ _ _ _ _ _ _ _ H3 H)) as C.
  rewrite app_nil_r in C. exact C.
Qed.

(** Labels of the type information differ from each other when the types have
    different names. *)
Lemma string_app_inv_tail a : forall b c, (a ++ c = b ++ c)%string -> a = b.
Proof.
  assert (L : forall a b, String.length (a ++ b)%string = (String.length a + String.length b)%nat).
  { induction a0; intros; cbn; auto. }
  induction a as [|x a IH]; intros [|y b] c H; cbn in H; auto.
  - apply (f_equal String.length) in H. cbn in H. rewrite L in H. lia.
  - apply (f_equal String.length) in H. cbn in H. rewrite L in H. lia.
  - injection H as <- H. f_equal. eauto.
Qed.
Lemma digit_inj a b : (a < 10)%nat -> (b < 10)%nat -> digit a = digit b -> a = b.
Proof.
  intros Ha Hb H. apply (f_equal nat_of_ascii) in H. unfold digit in H. rewrite !nat_ascii_embedding in H by lia. lia.
Qed.
Lemma string_snoc_inj a : forall b x y, (a ++ String x EmptyString = b ++ String y EmptyString)%string -> a = b /\ x = y.
Proof.
  induction a as [|u a IH]; intros [|v b] x y H; cbn in H.
  - now injection H as <-.
  - injection H as _ H. destruct b; discriminate.
  - injection H as _ H. destruct a; discriminate.
  - injection H as <- H. apply IH in H as [-> ->]. auto.
Qed.
Lemma digits_inj f : forall g a b, (a < f)%nat -> (b < g)%nat -> digits f a = digits g b -> a = b.
Proof.
  induction f as [|f IH]; intros g a b Ha Hb H; [lia|]. destruct g as [|g]; [lia|]. cbn [digits] in H.
  assert (Ne : forall k n, (n < k)%nat -> digits k n <> EmptyString).
  { intros [|k] n Hn; [lia|]. cbn [digits]. destruct (Nat.ltb n 10); [discriminate|]. destruct (digits k (n / 10)); discriminate. }
  assert (Hq : forall n k, (10 <= n < S k)%nat -> (n / 10 < k)%nat).
  { intros n k Hn. pose proof (Nat.div_lt n 10). lia. }
  destruct (Nat.ltb_spec a 10), (Nat.ltb_spec b 10).
  - injection H as H. apply digit_inj; [assumption|assumption|]. unfold digit. exact H.
  - specialize (Ne g (b / 10)%nat (Hq b g ltac:(lia))). destruct (digits g (b / 10)) as [|? [|]]; [congruence| |]; discriminate.
  - specialize (Ne f (a / 10)%nat (Hq a f ltac:(lia))). destruct (digits f (a / 10)) as [|? [|]]; [congruence| |]; discriminate.
  - apply string_snoc_inj in H as [D1 D2]. apply IH in D1; [|apply Hq; lia|apply Hq; lia].
    apply digit_inj in D2; [|apply Nat.mod_upper_bound; lia|apply Nat.mod_upper_bound; lia].
    rewrite (Nat.div_mod a 10), (Nat.div_mod b 10) by lia. congruence.
Qed.
Lemma dec_inj a b : dec a = dec b -> a = b.
Proof. apply digits_inj; lia. Qed.
Lemma app_prefix_inj p : forall a b, (p ++ a = p ++ b)%string -> a = b.
Proof. induction p as [|x p IH]; intros a b H; [exact H|]. injection H as H. auto. Qed.
Lemma info_label_inj a b : info_label a = info_label b -> a = b.
Proof. unfold info_label. intros H. injection H as H. now apply dec_inj. Qed.

Lemma named_roots ts : forall tag et roots l, type_roots ts tag et = Some roots -> In l (map root_label roots) ->
  l = LNoGc \/ (exists n, l = LSym ("struct_" ++ n)) \/ exists n, l = LSym ("enum_" ++ n).
Proof.
  induction ts as [|t ts IH]; intros tag et roots l H Hl; cbn [type_roots] in H; [injection H as <-; destruct Hl|].
  assert (K : forall x tag et, option_map (cons x) (type_roots ts tag et) = Some roots ->
    (root_label x = LNoGc \/ (exists n, root_label x = LSym ("struct_" ++ n)) \/ exists n, root_label x = LSym ("enum_" ++ n)) ->
    l = LNoGc \/ (exists n, l = LSym ("struct_" ++ n)) \/ exists n, l = LSym ("enum_" ++ n)).
  { intros x tag' et' G Hx. destruct (type_roots ts tag' et') eqn:E; [|discriminate]. injection G as <-. destruct Hl as [<-|Hl]; eauto. }
  destruct t; try (eapply K; [exact H|cbn; eauto]).
  - destruct (pointer_fields fields); eapply K; try exact H; cbn; eauto.
  - destruct (nth_error members _) as [[ctag ps]|]; [|discriminate]. destruct (negb _); [discriminate|].
    destruct (pointer_slots 1 ps); eapply K; try exact H; cbn; eauto.
Qed.
Lemma nodup_map_inj {A B} (f : A -> B) l : (forall a b, f a = f b -> a = b) -> NoDup l -> NoDup (map f l).
Proof.
  intros Hf. induction 1 as [|x l Hx _ IH]; cbn; constructor; auto. intros Hi. apply in_map_iff in Hi as (y & E & Hy).
  apply Hf in E. now subst.
Qed.
Lemma nodup_app {A} (a b : list A) : NoDup a -> NoDup b -> (forall x, In x a -> ~ In x b) -> NoDup (a ++ b).
Proof.
  induction 1 as [|x a Hx _ IH]; intros Hb Hd; cbn; [exact Hb|]. constructor.
  - rewrite in_app_iff. intros [H|H]; [auto|]. eapply Hd; [left; reflexivity|exact H].
  - apply IH; auto. intros y Hy. apply Hd. now right.
Qed.
Lemma program_labels_nodup ts s : NoDup (map_labels ts) ->
  NoDup (([LIoob; LNoGc] ++ table_labels ts) ++ literal_labels s).
Proof.
  intros Hm.
  assert (Hin : forall l, In l (map_labels ts) -> (exists n, l = LSym ("struct_" ++ n)) \/ exists n, l = LSym ("enum_" ++ n)).
  { unfold map_labels. destruct (type_roots ts 0 None) as [roots|] eqn:E; [|intros l []]. intros l Hl. apply filter_In in Hl as [Hl Hn].
    destruct (named_roots _ _ _ _ _ E Hl) as [->|H]; [discriminate|exact H]. }
  assert (Ht : NoDup (table_labels ts)).
  { unfold table_labels. apply nodup_app; [exact Hm| |].
    - apply nodup_app; [apply nodup_map_inj; [exact info_label_inj|apply seq_NoDup]|repeat constructor; intros []|].
      intros l Hl [<-|[]]. apply in_map_iff in Hl as (i & Hl & _). discriminate.
    - intros l Hl Hi. apply in_app_iff in Hi as [Hi|[<-|[]]].
      + apply in_map_iff in Hi as (i & <- & _). destruct (Hin _ Hl) as [[n H]|[n H]]; discriminate.
      + destruct (Hin _ Hl) as [[n H]|[n H]]; discriminate. }
  assert (Hs : forall l, In l (table_labels ts) -> exists n, l = LSym n).
  { intros l Hl. unfold table_labels in Hl. apply in_app_iff in Hl as [Hl|Hl].
    - destruct (Hin _ Hl) as [[n H]|[n H]]; eauto.
    - apply in_app_iff in Hl as [Hl|[<-|[]]]; [|eauto]. apply in_map_iff in Hl as (i & <- & _). unfold info_label. eauto. }
  apply nodup_app.
  - apply nodup_app; [repeat constructor; cbn; intuition discriminate|exact Ht|].
    intros l Hl Hi. apply Hs in Hi as [n ->]. cbn in Hl. intuition discriminate.
  - unfold literal_labels. apply nodup_map_inj; [intros a b H; now injection H|apply seq_NoDup].
  - intros l Hl Hi. apply in_map_iff in Hi as (i & <- & _). apply in_app_iff in Hl as [Hl|Hl].
    + cbn in Hl. intuition discriminate.
    + apply Hs in Hl as [n Hn]. discriminate.
Qed.

(** Every label is defined at most once, and every label referred to is defined. *)
Lemma program_unique unq alloc ioob entry ts prog c s' : NoDup (map_labels ts) ->
  gen_program unq alloc ioob entry ts prog start = Some (c, s') -> forall l, (lcount l c <= 1)%nat.
Proof.
  intros Hm H l. apply chunk_program in H as [_ _ _ k _ _ _]. specialize (k l).
  pose proof (acount_nodup l _ (program_labels_nodup ts s' Hm)) as A. cbn [start g_lab g_id] in k.
  destruct l; try lia; destruct (between _ _ _); lia.
Qed.
Lemma program_refs unq alloc ioob entry ts prog c s' :
  gen_program unq alloc ioob entry ts prog start = Some (c, s') ->
  forall e l, In e c -> refers e l -> (1 <= lcount l c)%nat \/ exists f, l = LName f.
Proof.
  intros H e l He Hr. apply chunk_program in H as [_ _ _ k _ r _]. destruct (r e l He Hr) as [G|G]; [auto|].
  specialize (k l). destruct G as [->|[->|[(n & -> & Hn)|[f ->]]]]; [left|left|left|eauto]; rewrite k; apply acount_in; rewrite !in_app_iff.
  - left. left. cbn. auto.
  - left. left. cbn. auto.
  - right. unfold literal_labels. apply in_map. apply in_seq. lia.
Qed.

(** Unique labels are found. *)
Lemma find_label_count P l : forall k i, (lcount l P <= 1)%nat -> nth_error P i = Some (ELabel l) ->
  find_label_from k P l = Some (k + i)%nat.
Proof.
  induction P as [|e P IH]; intros k i Hc Hi; [now destruct i|]. destruct i as [|i]; cbn in Hi.
  - injection Hi as ->. cbn. rewrite label_eqb_refl. f_equal. lia.
  - assert (Hin : (1 <= lcount l P)%nat).
    { clear -Hi. revert i Hi. induction P as [|e P IH]; intros [|i] Hi; try discriminate; cbn in Hi.
      - injection Hi as ->. cbn. rewrite label_eqb_refl. lia.
      - apply IH in Hi. destruct e; cbn; lia. }
    destruct e; cbn in Hc |- *; try (rewrite (IH (S k) i) by (assumption || lia); f_equal; lia).
    destruct (label_eqb l l0); [lia|]. rewrite (IH (S k) i) by (assumption || lia). f_equal; lia.
Qed.
Lemma find_fn_count P f : forall k i, (fcount f P <= 1)%nat -> nth_error P i = Some (EFn f) ->
  find_fn_from k P f = Some (k + i)%nat.
Proof.
  induction P as [|e P IH]; intros k i Hc Hi; [now destruct i|]. destruct i as [|i]; cbn in Hi.
  - injection Hi as ->. cbn. rewrite String.eqb_refl. f_equal. lia.
  - assert (Hin : (1 <= fcount f P)%nat).
    { clear -Hi. revert i Hi. induction P as [|e P IH]; intros [|i] Hi; try discriminate; cbn in Hi.
      - injection Hi as ->. cbn. rewrite String.eqb_refl. lia.
      - apply IH in Hi. destruct e; cbn; lia. }
    destruct e; cbn in Hc |- *; try (rewrite (IH (S k) i) by (assumption || lia); f_equal; lia).
    destruct (String.eqb f f0); [lia|]. rewrite (IH (S k) i) by (assumption || lia). f_equal; lia.
Qed.
Lemma lcount_find P l : forall k, (1 <= lcount l P)%nat -> exists i, find_label_from k P l = Some i.
Proof.
  induction P as [|e P IH]; intros k H; cbn in H; [lia|]. destruct e; cbn; auto. destruct (label_eqb l l0); eauto.
Qed.

Lemma program_jumps unq alloc ioob entry ts prog c s' :
  gen_program unq alloc ioob entry ts prog start = Some (c, s') ->
  forall l, jumps_to l c -> (1 <= lcount l c)%nat.
Proof.
  intros H l Hl. apply chunk_program in H as [_ _ _ k _ _ j]. destruct (j l Hl) as [G| ->]; [exact G|].
  specialize (k LIoob). cbn beta iota in k. rewrite k. apply acount_in. cbn. auto.
Qed.
