(** Accepted match statements have one case per member. *)
From Coq Require Import List Bool String PeanoNat Lia Permutation.
From Verif Require Import MatchModel.
Import ListNotations.
Local Open Scope string_scope.
Local Open Scope list_scope.

Lemma update_length {A} (l : list A) i v : List.length (update l i v) = List.length l.
Proof. revert i. induction l; intros [|i]; cbn; auto. Qed.
Lemma update_same {A} (l : list A) i v : i < List.length l -> nth_error (update l i v) i = Some v.
Proof. revert i. induction l; intros [|i] H; cbn in *; try lia; auto. apply IHl. lia. Qed.
Lemma update_other {A} (l : list A) i j v : i <> j -> nth_error (update l i v) j = nth_error l j.
Proof. revert i j. induction l; intros [|i] [|j] H; cbn; auto; congruence. Qed.

(** The member functions of an enum declared without errors: new, with the tags in order. *)
Lemma declare_members_ok ms : forall s i members s' members', declare_members s i ms members = (s', members', []) ->
  exists new, members' = members ++ new /\ List.length new = List.length ms /\
    (forall a, In a new -> List.length (s_fns s) <= a) /\ NoDup new /\
    (forall j x n, nth_error ms j = Some (x, n) -> exists a, nth_error new j = Some a /\
        nth_error (s_fns s') a = Some (Fn (KEnumCons (i + j)) n) /\ n <= max_case_args /\ resolve (s_table s') x = Some (SFun a)) /\
    (forall a, a < List.length (s_fns s) -> nth_error (s_fns s') a = nth_error (s_fns s) a) /\
    (forall x f, resolve (s_table s) x = Some f -> resolve (s_table s') x = Some f) /\
    (forall y a, resolve (s_table s') y = Some (SFun a) -> resolve (s_table s) y = Some (SFun a) \/
       exists j n, nth_error ms j = Some (y, n) /\ nth_error new j = Some a).
Proof.
  induction ms as [|[x n] ms IH]; intros s i members s' members' E; cbn [declare_members] in E.
  - inversion E; subst. exists []. rewrite app_nil_r. repeat split; auto; [intros a []|constructor|intros [|j]; discriminate].
  - unfold process_cons in E. destruct (resolve (s_table s) x) eqn:Rx; [discriminate|].
    destruct (Nat.ltb_spec max_case_args n).
    { destruct (declare_members _ _ ms members) as [[s2 m] es]. discriminate. }
    cbn [s_fns s_table] in E. apply IH in E as (new & -> & L & Hge & Nd & Ht & Hk & Hr & Ho). cbn [s_fns s_table] in *.
    rewrite update_length, app_length in Hge, Hk. cbn [List.length] in Hge, Hk.
    exists (List.length (s_fns s) :: new). rewrite <- app_assoc. cbn [app List.length]. repeat split.
    + lia.
    + intros a [<-|I]; [lia|]. apply Hge in I. lia.
    + constructor; [|exact Nd]. intros I. apply Hge in I. lia.
    + intros [|j] y m Hj; cbn in Hj.
      * inversion Hj; subst. exists (List.length (s_fns s)). cbn [nth_error]. split; [reflexivity|]. split; [|split; [exact H|]].
        -- rewrite Hk by lia. rewrite update_same by (rewrite app_length; cbn; lia). rewrite Nat.add_0_r. reflexivity.
        -- apply Hr. cbn. rewrite String.eqb_refl. reflexivity.
      * destruct (Ht _ _ _ Hj) as (a & A1 & A2 & A3). exists a. cbn [nth_error]. replace (i + S j) with (S i + j) by lia. auto.
    + intros a Ha. rewrite Hk by lia. rewrite update_other by lia. apply nth_error_app1. exact Ha.
    + intros y f Hy. apply Hr. cbn. destruct (String.eqb_spec y x); [subst; congruence|exact Hy].
    + intros y a Hy. apply Ho in Hy as [Hy|(j & m & H1 & H2)]; [|right; exists (S j), m; auto].
      cbn in Hy. destruct (String.eqb_spec y x) as [->|]; [|left; exact Hy]. inversion Hy; subst. right. exists 0, n. auto.
Qed.

Lemma define_vars_ok vars : forall seen, define_vars seen vars = [] -> NoDup vars /\ forall x, In x vars -> ~ In x seen.
Proof.
  induction vars as [|x vars IH]; intros seen E; cbn in E; [split; [constructor|intros x []]|].
  destruct (existsb (String.eqb x) seen) eqn:Ex; [discriminate|]. apply IH in E as [A B].
  assert (N : ~ In x seen). { intros I. assert (existsb (String.eqb x) seen = true) by (apply existsb_exists; exists x; split; [exact I|apply String.eqb_refl]). congruence. }
  split; [constructor; [|exact A]; intros I; apply (B _ I); left; reflexivity|].
  intros y [<-|I]; [exact N|]. intros J. apply (B _ I). right. exact J.
Qed.

Lemma check_members_ok s members cs : forall seen, check_members s members seen cs = [] -> (forall c, In c cs -> snd (check_case s c) <> None) ->
  exists ids, map Some ids = map (fun c => snd (check_case s c)) cs /\ NoDup ids /\ (forall a, In a ids -> In a members /\ ~ In a seen).
Proof.
  induction cs as [|c cs IH]; intros seen E N; cbn [check_members] in E.
  - exists []. split; [reflexivity|]. split; [constructor|intros a []].
  - destruct (snd (check_case s c)) as [a|] eqn:C; [|exfalso; exact (N c (or_introl eq_refl) C)].
    unfold has_member_fn in E. destruct (existsb (Nat.eqb a) members) eqn:M; cbn [negb] in E; [|discriminate].
    destruct (existsb (Nat.eqb a) seen) eqn:S; [discriminate|].
    destruct (IH _ E (fun c I => N c (or_intror I))) as (ids & A & B & D). exists (a :: ids). cbn [map]. rewrite A, C. split; [reflexivity|].
    apply existsb_exists in M as [a' [M1 M2]]. apply Nat.eqb_eq in M2. subst a'.
    assert (Na : ~ In a seen). { intros I. assert (existsb (Nat.eqb a) seen = true) by (apply existsb_exists; exists a; split; [exact I|apply Nat.eqb_refl]). congruence. }
    split; [constructor; [|exact B]; intros I; apply (proj2 (D _ I)); left; reflexivity|].
    intros b [<-|I]; [auto|]. split; [apply D, I|]. intros J. apply (proj2 (D _ I)). right. exact J.
Qed.

Lemma check_match_ok s members cs : check_match s members cs = [] ->
  (exists ids, map Some ids = map (fun c => snd (check_case s c)) cs /\ NoDup ids /\ (forall a, In a ids -> In a members)) /\
  List.length cs = List.length members /\
  (forall c, In c cs -> NoDup (ca_vars c) /\ exists a i, resolve (s_table s) (ca_name c) = Some (SFun a) /\ snd (check_case s c) = Some a /\
      nth_error (s_fns s) a = Some (Fn (KEnumCons i) (List.length (ca_vars c)))).
Proof.
  unfold check_match. intros E.
  destruct (flat_map (fun c => fst (check_case s c)) cs ++ check_members s members [] cs) as [|q l] eqn:F; [|discriminate].
  apply app_eq_nil in F as [F1 F2]. destruct (Nat.eqb_spec (List.length cs) (List.length members)) as [L|]; [|discriminate].
  assert (P : forall c, In c cs -> fst (check_case s c) = []).
  { intros c I. destruct (fst (check_case s c)) as [|e es] eqn:Fc; [reflexivity|]. exfalso.
    assert (J : In e (flat_map (fun c => fst (check_case s c)) cs)) by (apply in_flat_map; exists c; rewrite Fc; split; [exact I|left; reflexivity]).
    rewrite F1 in J. exact J. }
  assert (Q : forall c, In c cs -> NoDup (ca_vars c) /\ exists a i, resolve (s_table s) (ca_name c) = Some (SFun a) /\ snd (check_case s c) = Some a /\
      nth_error (s_fns s) a = Some (Fn (KEnumCons i) (List.length (ca_vars c)))).
  { intros c I. apply P in I. unfold check_case in *. destruct (resolve (s_table s) (ca_name c)) as [[a|]|]; try discriminate.
    destruct (nth_error (s_fns s) a) as [[[|i] n]|] eqn:Ea; try discriminate.
    destruct (Nat.eqb_spec n (List.length (ca_vars c))); [|discriminate]. subst n. cbn [fst] in I. apply app_eq_nil in I as [I _].
    split; [apply (define_vars_ok _ [] I)|]. exists a, i. auto. }
  split; [|split; [exact L|exact Q]].
  destruct (check_members_ok s members cs [] F2) as (ids & A & B & D).
  { intros c I. destruct (Q c I) as (_ & a & i & _ & -> & _). discriminate. }
  exists ids. split; [exact A|]. split; [exact B|]. intros a I. apply D, I.
Qed.

Lemma in_map_some {A B} (f : A -> option B) l ids a : map Some ids = map f l -> In a ids <-> exists c, In c l /\ f c = Some a.
Proof.
  intros E. split.
  - intros I. apply (in_map Some) in I. rewrite E in I. apply in_map_iff in I as [c [X Y]]. eauto.
  - intros [c [I X]]. apply (in_map f) in I. rewrite X, <- E in I. apply in_map_iff in I as [b [Y Z]]. congruence.
Qed.

Definition tags_of (s : state) (cs : list case) : list (option nat) := map (case_tag_of s) cs.

(** Names stand for functions that exist. *)
Definition well_formed (s : state) : Prop := forall x a, resolve (s_table s) x = Some (SFun a) -> a < List.length (s_fns s).

Lemma match_complete s0 ms s members cs : well_formed s0 -> declare_enum s0 ms = (s, members, []) -> check_match s members cs = [] ->
  Permutation (tags_of s cs) (map Some (seq 0 (List.length ms))) /\
  forall c, In c cs -> NoDup (ca_vars c) /\
    exists i, nth_error ms i = Some (ca_name c, List.length (ca_vars c)) /\ case_tag_of s c = Some i.
Proof.
  intros Wf D C. unfold declare_enum in D. apply declare_members_ok in D as (new & Em & L & Hge & Nd & Ht & _ & _ & Ho). cbn in Em. subst members.
  apply check_match_ok in C as ((ids & A & B & Inm) & Lc & Q).
  assert (Li : List.length ids = List.length cs) by (rewrite <- (map_length Some ids), A, map_length; reflexivity).
  assert (P : Permutation ids new). { apply NoDup_Permutation_bis; [exact B|lia|exact Inm]. }
  set (tag := fun a => match nth_error (s_fns s) a with Some (Fn (KEnumCons i) _) => Some i | _ => None end).
  assert (Tn : map tag new = map Some (seq 0 (List.length ms))).
  { rewrite <- L. assert (G : forall k l (ms' : list (string * nat)), (forall j, nth_error l j <> None -> exists x n a, nth_error ms' j = Some (x, n) /\ nth_error l j = Some a /\ nth_error (s_fns s) a = Some (Fn (KEnumCons (k + j)) n)) ->
      map tag l = map Some (seq k (List.length l))).
    { clear. intros k l. revert k. induction l as [|a l IH]; intros k ms' G; [reflexivity|]. cbn.
      destruct (G 0%nat ltac:(discriminate)) as (x & n & a' & G1 & G2 & G3). cbn in G2. inversion G2; subst. unfold tag at 1. rewrite G3, Nat.add_0_r. f_equal.
      apply (IH (S k) (tl ms')). intros j Hj. destruct (G (S j) Hj) as (x' & n' & b & H1 & H2 & H3). exists x', n', b.
      destruct ms'; [discriminate|]. cbn in H1, H2. rewrite <- Nat.add_succ_comm in H3. auto. }
    apply (G 0%nat new ms). intros j Hj. apply nth_error_Some in Hj. rewrite L in Hj. apply nth_error_Some in Hj.
    destruct (nth_error ms j) as [[x n]|] eqn:Ej; [|congruence]. destruct (Ht _ _ _ Ej) as (a & A1 & A2 & A3). exists x, n, a. auto. }
  split.
  - assert (E : tags_of s cs = map tag ids).
    { unfold tags_of. rewrite <- (map_map (fun c => snd (check_case s c)) (fun o => match o with Some a => tag a | None => None end)).
      rewrite <- A, map_map. apply map_ext. reflexivity. }
    rewrite E, <- Tn. apply Permutation_map. exact P.
  - intros c I. destruct (Q c I) as (Nv & a & i & R & Sn & F). split; [exact Nv|].
    assert (Ia : In a new). { apply Inm. apply (proj2 (in_map_some _ _ _ _ A)). exists c. auto. }
    apply Hge in Ia. destruct (Ho _ _ R) as [O|(j & n & O1 & O2)]; [apply Wf in O; lia|].
    destruct (Ht _ _ _ O1) as (a' & A1 & A2 & A3 & A4). rewrite O2 in A1. inversion A1; subst a'. rewrite F in A2. inversion A2; subst.
    exists j. split; [exact O1|]. unfold case_tag_of; rewrite Sn, F; reflexivity.
Qed.
