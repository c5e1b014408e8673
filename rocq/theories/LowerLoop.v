(** For statements: the values the loops visit. *)
From Coq Require Import ZArith List Bool String Lia.
From Verif Require Import Ints X86 GenModel GenSpec GenMem GenFuel LowerModel LowerSpec LowerFin LowerRet LowerVars LowerMatch.
Import ListNotations.
Open Scope Z_scope.
Ltac Zify.zify_post_hook ::= Z.div_mod_to_equations.

Lemma apart_refl xs R : apart xs R R.
Proof. destruct R as [[[o r] h]| | | |]; cbn; auto. Qed.
Lemma apart_more xs ys R R' : (forall x, In x xs -> In x ys) -> apart xs R R' -> apart ys R R'.
Proof.
  intros S. destruct R as [[[o r] h]| | | |], R' as [[[o' r'] h']| | | |]; cbn; auto.
  intros (A & B & C). repeat split; auto.
Qed.
Lemma apart_trans xs R1 R2 R3 : apart xs R1 R2 -> apart xs R2 R3 -> apart xs R1 R3.
Proof.
  destruct R1 as [[[o r] h]| | | |], R2 as [[[o' r'] h']| | | |], R3 as [[[o2 r2] h2]| | | |]; cbn; try tauto.
  - intros (-> & -> & A) (-> & -> & B). repeat split; auto. intros y N. rewrite A by exact N. apply B, N.
  - intros (-> & -> & ->) H. exact H.
Qed.
Lemma same_more xs ys P Q : (forall x, In x xs -> In x ys) -> same_results xs P Q -> same_results ys P Q.
Proof.
  intros S [H1 H2]. split.
  - intros R H. destruct (H1 R H) as [R' [A B]]. exists R'. split; [exact A|]. eapply apart_more; eassumption.
  - intros R H. destruct (H2 R H) as [R' [A B]]. exists R'. split; [exact A|]. eapply apart_more; eassumption.
Qed.
Lemma same_ext xs P P' Q : (forall R, P R <-> P' R) -> same_results xs P' Q -> same_results xs P Q.
Proof.
  intros E [H1 H2]. split.
  - intros R H. apply H1, E, H.
  - intros R' H. destruct (H2 R' H) as [R [A B]]. exists R. split; [apply E, A|exact B].
Qed.

Lemma upto_done a b : b <= a -> upto a b = [].
Proof. intros H. unfold upto. replace (Z.to_nat (b - a)) with O by lia. reflexivity. Qed.
Lemma upto_next a b : a < b -> upto a b = a :: upto (a + 1) b.
Proof.
  intros H. unfold upto. replace (Z.to_nat (b - a)) with (S (Z.to_nat (b - (a + 1)))) by lia. cbn [List.seq map].
  f_equal; [lia|]. rewrite <- seq_shift, map_map. apply map_ext. intros i. lia.
Qed.
Lemma downto_done a b : a <= b -> downto a b = [].
Proof. intros H. unfold downto. replace (Z.to_nat (a - b)) with O by lia. reflexivity. Qed.
Lemma downto_next a b : b < a -> downto a b = (a - 1) :: downto (a - 1) b.
Proof.
  intros H. unfold downto. replace (Z.to_nat (a - b)) with (S (Z.to_nat (a - 1 - b))) by lia. cbn [List.seq map].
  f_equal; [lia|]. rewrite <- seq_shift, map_map. apply map_ext. intros i. lia.
Qed.

(** What occurs not is not assigned. *)
Lemma occurs_assigned x : forall s, occurs x s = false -> assigned x s = false.
Proof.
  assert (L : forall l, Forall (fun s => occurs x s = false -> assigned x s = false) l -> occurs_any x l = false -> assigned_any x l = false).
  { induction 1 as [|s l Hs Hl IH]; cbn; auto. intros O. apply orb_false_iff in O as [A B]. rewrite Hs, IH by assumption. reflexivity. }
  induction s using xstmt_ind'; cbn [occurs assigned]; fold (occurs_any x) (occurs_chain x) (occurs_cases x) (assigned_any x) (assigned_chain x) (assigned_cases x); auto.
  - induction bs as [|[c b] bs IH]; cbn; auto. inversion H as [|? ? Hb Hr]; subst. cbn in Hb. intros O. apply orb_false_iff in O as [O1 O2]. apply orb_false_iff in O1 as [_ O1].
    rewrite (L _ Hb O1), (IH Hr O2). reflexivity.
  - intros O. apply orb_false_iff in O as [A B]. exact A.
  - destruct l; auto. cbn. intros O. apply orb_false_iff in O as [A B]. exact A.
  - intros O. apply orb_false_iff in O as [A B]. auto.
  - intros O. apply orb_false_iff in O as [O D]. apply orb_false_iff in O as [O C]. apply orb_false_iff in O as [A B]. rewrite A. cbn. auto.
  - intros O. apply orb_false_iff in O as [O C]. apply orb_false_iff in O as [A B]. rewrite A. cbn. auto.
  - intros O. apply orb_false_iff in O as [_ O]. induction cs as [|[[tag vars] b] cs IH]; cbn in *; auto. inversion H as [|? ? Hb Hr]; subst. cbn in Hb.
    apply orb_false_iff in O as [O C]. apply orb_false_iff in O as [A B]. rewrite A, (L _ Hb B), (IH Hr C). reflexivity.
Qed.
Lemma occurs_assigned_any x l : occurs_any x l = false -> assigned_any x l = false.
Proof. induction l as [|s l IH]; cbn; auto. intros O. apply orb_false_iff in O as [A B]. rewrite (occurs_assigned _ _ A), (IH B). reflexivity. Qed.

Section Loop.
Variable heap : Z -> bool.
Variable lit : list Z -> Z.
Variable fun_addr : string -> Z.
Variable fun_at : Z -> option string.
Variable extern abstract : string -> list (option Z) -> memory -> option (option Z * memory).
Variable alloc : string.
Variable prog : list fundef.
Variable K : consts.
Notation EVAL := (eval heap lit fun_addr fun_at extern abstract alloc prog).
Notation EXEC := (exec_stmt heap lit fun_addr fun_at extern abstract alloc prog).
Notation EXEC_LIST := (exec_list heap lit fun_addr fun_at extern abstract alloc prog).
Notation finE r h e := (fin (fun n d => EVAL n d r h e)).
Notation finS r h s := (fin (fun n d => EXEC n d r h s)).
Notation finL r h l := (fin (fun n d => EXEC_LIST n d r h l)).
Local Notation finL_app := (finL_app heap lit fun_addr fun_at extern abstract alloc prog).
Local Notation finL_one := (finL_one heap lit fun_addr fun_at extern abstract alloc prog).
Local Notation finL_nil := (finL_nil heap lit fun_addr fun_at extern abstract alloc prog).
Local Notation finL_cons := (finL_cons heap lit fun_addr fun_at extern abstract alloc prog).
Local Notation finS_while := (finS_while heap lit fun_addr fun_at extern abstract alloc prog).
Local Notation finS_block := (finS_block heap lit fun_addr fun_at extern abstract alloc prog).
Local Notation finS_das := (finS_das heap lit fun_addr fun_at extern abstract alloc prog).
Local Notation finS_as_var := (finS_as_var heap lit fun_addr fun_at extern abstract alloc prog).
Local Notation wants_val := (wants_val heap lit fun_addr fun_at extern abstract alloc prog).
Local Notation finE_dot := (finE_dot heap lit fun_addr fun_at extern abstract alloc prog).
Local Notation finE_cmp := (finE_cmp heap lit fun_addr fun_at extern abstract alloc prog).
Local Notation finE_add := (finE_add heap lit fun_addr fun_at extern abstract alloc prog).
Local Notation finE_var := (finE_var heap lit fun_addr fun_at extern abstract alloc prog).
Local Notation stable := (stable heap lit fun_addr fun_at extern abstract alloc prog).
Local Notation same_array := (same_array heap lit fun_addr fun_at extern abstract alloc prog).
Local Notation in_heap_array := (in_heap_array heap).
Local Notation keeps_length := (keeps_length heap lit fun_addr fun_at extern abstract alloc prog).
Local Notation finE_int := (finE_int heap lit fun_addr fun_at extern abstract alloc prog).

Lemma finL_keeps x r h l o r1 h1 : assigns_any x l = false -> finL r h l (Val (o, r1, h1)) -> r1 x = r x.
Proof. intros A [_ [n [d E]]]. exact (proj1 (proj2 (exec_keeps heap lit fun_addr fun_at extern abstract alloc prog x n d r h)) l o r1 h1 A E). Qed.

Lemma env_set_same r x v : env_set r x v x = Some v.
Proof. unfold env_set. rewrite Nat.eqb_refl. reflexivity. Qed.

Lemma wint_add a b : wint (iadd (ival (wint a)) (ival (wint b))) = wint (a + b).
Proof.
  rewrite !ival_wint. unfold iadd. rewrite wint_wrap. apply wint_cong.
  destruct (wrap_cong a) as [i A], (wrap_cong b) as [j B]. exists (i + j). lia.
Qed.

Lemma finS_inc r h x t v i R : r x = Some (wint v) -> finS r h (inc K (EVar t x) i) R <-> R = Val (ONormal, env_set r x (wint (v + i)), h).
Proof.
  intros E. unfold inc, plus, int_lit. rewrite finS_as_var.
  assert (A := finE_add r h (typ (EVar t x)) (EVar t x) (ELitInt (c_int K) i) _ _ _ _ (finE_var r h t x _ E) (finE_int r h (c_int K) i)).
  rewrite wint_add in A. rewrite (wants_val _ _ _ _ _ _ _ A). reflexivity.
Qed.

(* --------------------------------------------------------------------- range loops *)

(** The values a counter takes while a test holds. *)
Fixpoint walk (T : Z -> bool) (delta v : Z) (vs : list Z) : Prop :=
  match vs with
  | [] => T v = false /\ is_int v
  | u :: rest => u = v /\ T v = true /\ is_int v /\ walk T delta (v + delta) rest
  end.

Lemma counter_loop x t c body delta (I : (nat -> option Z) -> memory -> Prop) T :
  assigns_any x body = false ->
  (forall r h v, I r h -> is_int v -> r x = Some (wint v) -> finE r h c (Val (Some (wbool (T v)), h))) ->
  (forall r h v, I r h -> I (env_set r x v) h) ->
  (forall r h r1 h1, I r h -> finL r h body (Val (ONormal, r1, h1)) -> I r1 h1) ->
  forall vs v r h, walk T delta v vs -> I r h ->
  same_results [x] (fun R => finS (env_set r x (wint v)) h (SWhile c (body ++ [inc K (EVar t x) delta])) R)
    (each x (fun r h R => finL r h body R) vs r h).
Proof.
  intros As C I1 I2. induction vs as [|u vs IH]; intros v r h Wk Iv; cbn [walk] in Wk.
  - destruct Wk as [Tv Iz]. apply same_ext with (P' := fun R => R = Val (ONormal, env_set r x (wint v), h)).
    { intros R. rewrite finS_while. rewrite (wants_val _ _ _ _ _ _ _ (C _ h v (I1 _ _ _ Iv) Iz (env_set_same _ _ _))). rewrite Tv. reflexivity. }
    split.
    + intros R ->. exists (Val (ONormal, r, h)). split; [constructor|]. cbn. repeat split; auto. intros y N.
      unfold env_set. destruct (Nat.eqb_spec x y); [exfalso; apply N; left; assumption|reflexivity].
    + intros R' F. inversion F; subst. eexists. split; [reflexivity|]. cbn. repeat split; auto. intros y N.
      unfold env_set. destruct (Nat.eqb_spec x y); [exfalso; apply N; left; assumption|reflexivity].
  - destruct Wk as (-> & Tv & Iz & Wk). set (r0 := env_set r x (wint v)).
    set (wh := SWhile c (body ++ [inc K (EVar t x) delta])) in *.
    assert (Un : forall R, finS r0 h wh R <-> exists R1, finL r0 h body R1 /\ then_ (fun r1 h1 R => finS (env_set r1 x (wint (v + delta))) h1 wh R) R1 R).
    { intros R. unfold wh at 1. rewrite finS_while. rewrite (wants_val _ _ _ _ _ _ _ (C r0 h v (I1 _ _ _ Iv) Iz (env_set_same _ _ _))). rewrite Tv. cbn [as_bool wbool].
      split.
      - intros [R1 [F1 F2]]. apply finL_app in F1 as [R2 [F1 F3]]. exists R2. split; [exact F1|].
        destruct R2 as [[[[|o] r1] h1]|i w h1| | |]; cbn in F3 |- *.
        + apply finL_one in F3. apply (finS_inc _ _ _ _ v) in F3.
          * subst. exact F2.
          * rewrite (finL_keeps x _ _ _ _ _ _ As F1). apply env_set_same.
        + subst. exact F2.
        + destruct F3 as [X ->]. exact F2.
        + destruct F3 as [X ->]. exact F2.
        + destruct F3 as [X ->]. exact F2.
        + destruct F3 as [[] _].
      - intros [R1 [F1 F2]]. destruct R1 as [[[[|o] r1] h1]|i w h1| | |]; cbn in F2.
        + exists (Val (ONormal, env_set r1 x (wint (v + delta)), h1)). split; [|exact F2].
          apply finL_app. eexists. split; [exact F1|]. cbn. apply finL_one. apply (finS_inc _ _ _ _ v); [|reflexivity].
          rewrite (finL_keeps x _ _ _ _ _ _ As F1). apply env_set_same.
        + subst. eexists. split; [apply finL_app; eexists; split; [exact F1|reflexivity]|reflexivity].
        + destruct F2 as [X ->]. eexists. split; [apply finL_app; eexists; split; [exact F1|split; [exact X|reflexivity]]|split; [exact X|reflexivity]].
        + destruct F2 as [X ->]. eexists. split; [apply finL_app; eexists; split; [exact F1|split; [exact X|reflexivity]]|split; [exact X|reflexivity]].
        + destruct F2 as [X ->]. eexists. split; [apply finL_app; eexists; split; [exact F1|split; [exact X|reflexivity]]|split; [exact X|reflexivity]].
        + destruct F2 as [[] _]. }
    apply (same_ext _ _ _ _ Un). split.
    + intros R [R1 [F1 F2]].
      destruct R1 as [[[[|o] r1] h1]|i w h1| | |]; cbn in F2.
      * destruct (proj1 (IH (v + delta) r1 h1 Wk (I2 _ _ _ _ (I1 _ _ _ Iv) F1)) R F2) as [R' [A B]]. exists R'. split; [|exact B].
        eapply each_next; eassumption.
      * subst. eexists. split; [apply each_stop; [exact F1|intros; discriminate]|apply apart_refl].
      * destruct F2 as [_ ->]. eexists. split; [apply each_stop; [exact F1|intros; discriminate]|apply apart_refl].
      * destruct F2 as [_ ->]. eexists. split; [apply each_stop; [exact F1|intros; discriminate]|apply apart_refl].
      * destruct F2 as [_ ->]. eexists. split; [apply each_stop; [exact F1|intros; discriminate]|apply apart_refl].
      * destruct F2 as [[] _].
    + intros R' F. inversion F as [|? ? ? ? r1 h1 ? F1 F2|? ? ? ? ? F1 Ne]; subst.
      * destruct (proj2 (IH (v + delta) r1 h1 Wk (I2 _ _ _ _ (I1 _ _ _ Iv) F1)) R' F2) as [R [A B]]. exists R. split; [|exact B].
        eexists. split; [exact F1|]. exact A.
      * exists R'. split; [|apply apart_refl]. exists R'. split; [exact F1|]. assert (Nf : R' <> NoFuel) by apply F1.
        destruct R' as [[[[|o] r1] h1]|i w h1| | |]; cbn; auto. exfalso. apply (Ne r1 h1). reflexivity.
Qed.

Lemma walk_up b : is_int b -> forall a, is_int a -> walk (fun v => v <? b) 1 a (upto a b).
Proof.
  intros Ib a. remember (Z.to_nat (b - a)) as m eqn:Em. revert a Em. induction m as [|m IH]; intros a Em Ia.
  - rewrite upto_done by lia. cbn. split; [lia|exact Ia].
  - rewrite upto_next by lia. cbn [walk]. split; [reflexivity|]. split; [lia|]. split; [exact Ia|]. apply IH; [lia|].
    unfold is_int in *. lia.
Qed.
Lemma walk_down : forall a, is_int a -> 0 <= a -> walk (fun v => 0 <=? v) (-1) (a - 1) (downto a 0).
Proof.
  intros a. remember (Z.to_nat a) as m eqn:Em. revert a Em. induction m as [|m IH]; intros a Em Ia Pa.
  - assert (a = 0) by lia. subst. cbn. split; [reflexivity|]. unfold is_int, int_min, int_max. lia.
  - rewrite downto_next by lia. cbn [walk]. split; [reflexivity|]. split; [lia|]. split; [unfold is_int, int_min, int_max in *; lia|].
    replace (a - 1 + -1) with (a - 1 - 1) by lia. apply IH; [lia| |lia]. unfold is_int, int_min, int_max in *. lia.
Qed.

Lemma range_up x t a b body body' k k' st r h a0 b0 h1 I :
  lower K k (XRange x t a b false body) = Some (st, k') -> lower_body K k body = Some (body', k') ->
  (x < k)%nat -> assigned_any x body = false ->
  finE r h a (Val (Some (wint a0), h1)) -> is_int a0 -> is_int b0 ->
  stable x b (wint b0) body' I -> I r h1 ->
  same_results [x] (fun R => finS r h st R) (each x (fun r h R => finL r h body' R) (upto a0 b0) r h1).
Proof.
  intros L Lb Lx As Ea Ia Ib (S1 & S2 & S3) Ir.
  unfold lower in L. cbn [lower_with] in L. fold (lower_list K []) in L. unfold lower_body in Lb. rewrite Lb in L. inversion L; subst. clear L.
  assert (As' : assigns_any x body' = false) by (apply (body_fresh K x _ _ _ _ Lx Lb); exact As).
  unfold lower_range.
  assert (Ev : forall R, finS r h (SBlock [SDas x t a; SWhile (ECmp (c_bool K) Lt (EVar t x) b) (body' ++ [inc K (EVar t x) 1])]) R <->
    finS (env_set r x (wint a0)) h1 (SWhile (ECmp (c_bool K) Lt (EVar t x) b) (body' ++ [inc K (EVar t x) 1])) R).
  { intros R. rewrite finS_block, finL_cons. split.
    - intros [R1 [F1 F2]]. apply finS_das in F1. apply (proj1 (wants_val _ _ _ _ _ _ _ Ea)) in F1. cbv beta in F1. subst R1. cbn in F2. apply finL_one in F2. exact F2.
    - intros F. exists (Val (ONormal, env_set r x (wint a0), h1)). split; [apply finS_das, (wants_val _ _ _ _ _ _ _ Ea); reflexivity|]. cbn. apply finL_one. exact F. }
  apply (same_ext _ _ _ _ Ev).
  apply counter_loop with (I := I) (T := fun v => v <? b0); auto.
  - intros r1 h2 v I1 Iv E. assert (Q := finE_cmp r1 h2 (c_bool K) Lt _ _ _ _ _ _ (finE_var r1 h2 t x _ E) (S1 _ _ I1)).
    rewrite !ival_wint, !wrap_id in Q by assumption. exact Q.
  - apply walk_up; assumption.
Qed.

Lemma range_down x t tb a body body' k k' st r h a0 h1 :
  lower K k (XRange x t a (ELitInt tb 0) true body) = Some (st, k') -> lower_body K k body = Some (body', k') ->
  (x < k)%nat -> assigned_any x body = false ->
  finE r h a (Val (Some (wint a0), h1)) -> is_int a0 -> 0 <= a0 ->
  same_results [x] (fun R => finS r h st R) (each x (fun r h R => finL r h body' R) (downto a0 0) r h1).
Proof.
  intros L Lb Lx As Ea Ia Pa.
  unfold lower in L. cbn [lower_with] in L. fold (lower_list K []) in L. unfold lower_body in Lb. rewrite Lb in L. inversion L; subst. clear L.
  assert (As' : assigns_any x body' = false) by (apply (body_fresh K x _ _ _ _ Lx Lb); exact As).
  unfold lower_range. set (wh := SWhile (ECmp (c_bool K) Lte (ELitInt tb 0) (EVar t x)) (body' ++ [inc K (EVar t x) (-1)])).
  assert (Ea' := finE_add r h (typ a) _ _ _ _ _ _ Ea (finE_int r h1 (c_int K) (-1))). rewrite wint_add in Ea'.
  assert (Ev : forall R, finS r h (SBlock [SDas x t (plus a (int_lit K (-1))); wh]) R <-> finS (env_set r x (wint (a0 + -1))) h1 wh R).
  { intros R. rewrite finS_block, finL_cons. split.
    - intros [R1 [F1 F2]]. apply finS_das in F1. apply (proj1 (wants_val _ _ _ _ _ _ _ Ea')) in F1. cbv beta in F1. subst R1. cbn in F2. apply finL_one in F2. exact F2.
    - intros F. exists (Val (ONormal, env_set r x (wint (a0 + -1)), h1)). split; [apply finS_das, (wants_val _ _ _ _ _ _ _ Ea'); reflexivity|]. cbn. apply finL_one. exact F. }
  apply (same_ext _ _ _ _ Ev). unfold wh.
  apply counter_loop with (I := fun _ _ => True) (T := fun v => 0 <=? v); auto.
  - intros r1 h2 v I1 Iv E. assert (Q := finE_cmp r1 h2 (c_bool K) Lte _ _ _ _ _ _ (finE_int r1 h2 tb 0) (finE_var r1 h2 t x _ E)).
    rewrite !ival_wint, (wrap_id v) in Q by assumption. exact Q.
  - apply walk_down; assumption.
Qed.

(* --------------------------------------------------------------------- array loops *)

Lemma finE_index r h t a i p iv len : finE r h a (Val (Some p, h)) -> finE r h i (Val (Some (wint iv), h)) ->
  ok8 heap p = true -> load h p = wint len -> is_int len -> 0 <= iv < len -> ok8 heap (word (p + 8 + 8 * iv)) = true ->
  finE r h (EIndex t a i) (Val (Some (load h (word (p + 8 + 8 * iv))), h)).
Proof.
  intros A B O L Il Hi Ok.
  assert (Ii : is_int iv) by (unfold is_int, int_min, int_max in *; lia).
  apply finE_addr; [reflexivity| |exact Ok].
  assert (Q := finE_need2 heap lit fun_addr fun_at extern abstract alloc prog r h a i p h (wint iv) h (fun a i h =>
    if ok8 heap a then
      let len := ival (load h a) in
      if len <? 0 then Stuck
      else if (0 <=? ival i) && (ival i <? len) then Val (word (a + 8 * ival i + 8), h)
      else Ioob (ival i) a h
    else Stuck) (fun n d => eval_addr heap lit fun_addr fun_at extern abstract alloc prog n d r h (EIndex t a i)) A B).
  cbv beta in Q. rewrite O, L, !ival_wint, !wrap_id in Q by assumption. cbv zeta in Q.
  destruct (Z.ltb_spec len 0); [lia|].
  destruct (Z.leb_spec 0 iv); [|lia]. destruct (Z.ltb_spec iv len); [|lia]. cbn [andb] in Q.
  replace (p + 8 + 8 * iv) with (p + 8 * iv + 8) by lia. apply Q; [discriminate|]. intros n d. reflexivity.
Qed.

Lemma element_loop x t elem idx arr body p len (I : (nat -> option Z) -> memory -> Prop) :
  x <> idx -> uses_any idx body = false -> assigns_any idx body = false ->
  is_addr p -> is_int len -> ok8 heap p = true -> (forall i, 0 <= i < len -> ok8 heap (word (p + 8 + 8 * i)) = true) ->
  (forall r h, I r h -> finE r h arr (Val (Some p, h)) /\ load h p = wint len) ->
  (forall r h v, I r h -> I (env_set r x v) h) -> (forall r h v, I r h -> I (env_set r idx v) h) ->
  (forall r h r1 h1, I r h -> finL r h body (Val (ONormal, r1, h1)) -> I r1 h1) ->
  forall m i r r' h, Z.to_nat (len - i) = m -> 0 <= i -> is_int i -> off idx r' r -> r' idx = Some (wint i) -> I r' h ->
  same_results [idx] (fun R => finS r' h (SWhile (ECmp (c_bool K) Lt (EVar (c_int K) idx) (length_of K arr))
       (SAs (EVar t x) (EIndex elem arr (EVar (c_int K) idx)) :: body ++ [inc K (EVar (c_int K) idx) 1])) R)
    (each_element x p (fun r h R => finL r h body R) (upto i len) r h).
Proof.
  intros Nx Us As Ap Il Op Oe IA I1 I2 I3. set (wh := SWhile _ _).
  assert (Wp : word (p + word 0) = p). { rewrite word_add_r, Z.add_0_r. apply word_id. exact Ap. }
  assert (Test : forall r' h i, I r' h -> is_int i -> r' idx = Some (wint i) ->
    finE r' h (ECmp (c_bool K) Lt (EVar (c_int K) idx) (length_of K arr)) (Val (Some (wbool (i <? len)), h))).
  { intros r' h i Ir Ii E. destruct (IA _ _ Ir) as [Fa Fl].
    assert (Q : finE r' h (length_of K arr) (Val (Some (load h (word (p + word 0))), h))).
    { apply finE_dot with (h1 := h); [exact Fa|apply finE_off|]. rewrite Wp. exact Op. }
    rewrite Wp, Fl in Q.
    assert (Q2 := finE_cmp r' h (c_bool K) Lt _ _ _ _ _ _ (finE_var r' h (c_int K) idx _ E) Q).
    rewrite !ival_wint, !wrap_id in Q2 by assumption. exact Q2. }
  induction m as [|m IH]; intros i r r' h Em Pi Ii Of Ei Ir.
  - rewrite upto_done by lia.
    apply same_ext with (P' := fun R => R = Val (ONormal, r', h)).
    { intros R. unfold wh. rewrite finS_while. rewrite (wants_val _ _ _ _ _ _ _ (Test _ _ _ Ir Ii Ei)).
      destruct (Z.ltb_spec i len); [lia|]. reflexivity. }
    split.
    + intros R ->. exists (Val (ONormal, r, h)). split; [constructor|]. split; [reflexivity|]. split; [reflexivity|]. intros y N. apply Of. intros ->. apply N. left. reflexivity.
    + intros R' F. inversion F; subst. eexists. split; [reflexivity|]. split; [reflexivity|]. split; [reflexivity|]. intros y N. apply Of. intros ->. apply N. left. reflexivity.
  - rewrite upto_next by lia. assert (Lt_i : 0 <= i < len) by lia.
    destruct (IA _ _ Ir) as [Fa Fl].
    set (el := load h (word (p + 8 + 8 * i))).
    assert (Fe : finE r' h (EIndex elem arr (EVar (c_int K) idx)) (Val (Some el, h))).
    { apply finE_index with (len := len); auto; [apply finE_var, Ei]. }
    set (r0 := env_set r' x el).
    assert (E0 : r0 idx = Some (wint i)). { unfold r0, env_set. destruct (Nat.eqb_spec x idx); [congruence|exact Ei]. }
    assert (Ir0 : I r0 h) by (apply I1, Ir).
    assert (Of0 : off idx r0 (env_set r x el)) by (apply off_set, Of).
    assert (Un : forall R, finS r' h wh R <-> exists R1, finL r0 h body R1 /\ then_ (fun r1 h1 R => finS (env_set r1 idx (wint (i + 1))) h1 wh R) R1 R).
    { intros R. unfold wh at 1. rewrite finS_while. rewrite (wants_val _ _ _ _ _ _ _ (Test _ _ _ Ir Ii Ei)).
      destruct (Z.ltb_spec i len); [|lia]. cbn [as_bool wbool]. fold wh.
      assert (Fc : forall R1, finL r' h (SAs (EVar t x) (EIndex elem arr (EVar (c_int K) idx)) :: body ++ [inc K (EVar (c_int K) idx) 1]) R1 <-> finL r0 h (body ++ [inc K (EVar (c_int K) idx) 1]) R1).
      { intros R1. rewrite finL_cons. split.
        - intros [R2 [F1 F2]]. apply finS_as_var in F1. apply (proj1 (wants_val _ _ _ _ _ _ _ Fe)) in F1. cbv beta in F1. subst R2. exact F2.
        - intros F. exists (Val (ONormal, r0, h)). split; [apply finS_as_var, (wants_val _ _ _ _ _ _ _ Fe); reflexivity|exact F]. }
      split.
      - intros [R1 [F1 F2]]. apply Fc in F1. apply finL_app in F1 as [R2 [F1 F3]]. exists R2. split; [exact F1|].
        destruct R2 as [[[[|o] r1] h1]|j w h1| | |]; cbn in F3 |- *.
        + apply finL_one in F3. apply (finS_inc _ _ _ _ i) in F3.
          * subst. exact F2.
          * rewrite (finL_keeps idx _ _ _ _ _ _ As F1). exact E0.
        + subst. exact F2.
        + destruct F3 as [X ->]. exact F2.
        + destruct F3 as [X ->]. exact F2.
        + destruct F3 as [X ->]. exact F2.
        + destruct F3 as [[] _].
      - intros [R1 [F1 F2]]. destruct R1 as [[[[|o] r1] h1]|j w h1| | |]; cbn in F2.
        + exists (Val (ONormal, env_set r1 idx (wint (i + 1)), h1)). split; [|exact F2].
          apply Fc. apply finL_app. eexists. split; [exact F1|]. cbn. apply finL_one. apply (finS_inc _ _ _ _ i); [|reflexivity].
          rewrite (finL_keeps idx _ _ _ _ _ _ As F1). exact E0.
        + subst. eexists. split; [apply Fc, finL_app; eexists; split; [exact F1|reflexivity]|reflexivity].
        + destruct F2 as [X ->]. eexists. split; [apply Fc, finL_app; eexists; split; [exact F1|split; [exact X|reflexivity]]|split; [exact X|reflexivity]].
        + destruct F2 as [X ->]. eexists. split; [apply Fc, finL_app; eexists; split; [exact F1|split; [exact X|reflexivity]]|split; [exact X|reflexivity]].
        + destruct F2 as [X ->]. eexists. split; [apply Fc, finL_app; eexists; split; [exact F1|split; [exact X|reflexivity]]|split; [exact X|reflexivity]].
        + destruct F2 as [[] _]. }
    apply (same_ext _ _ _ _ Un).
    assert (Next : forall r1 r1' h1, off idx r1' r1 -> I r1' h1 ->
      same_results [idx] (fun R => finS (env_set r1' idx (wint (i + 1))) h1 wh R) (each_element x p (fun r h R => finL r h body R) (upto (i + 1) len) r1 h1)).
    { intros r1 r1' h1 O1 J1. apply IH; auto; try lia; [unfold is_int, int_min, int_max in *; lia| |apply env_set_same].
      intros y N. unfold env_set. destruct (Nat.eqb_spec idx y); [congruence|]. apply O1, N. }
    split.
    + intros R [R1 [F1 F2]].
      destruct (finL_off _ _ _ _ _ _ _ _ idx _ _ _ _ _ Of0 Us F1) as [R1' [G1 G2]].
      destruct R1 as [[[[|o] r1] h1]|j w h1| | |], R1' as [[[o' r1'] h1']| | | |]; cbn in F2, G2; try contradiction.
      * destruct G2 as (<- & <- & O1). destruct (proj1 (Next _ _ _ O1 (I3 _ _ _ _ Ir0 F1)) R F2) as [R' [A B]]. exists R'. split; [|exact B].
        eapply element_next; eassumption.
      * destruct G2 as (<- & <- & O1). subst. eexists. split; [apply element_stop; [exact G1|intros; discriminate]|]. split; [reflexivity|]. split; [reflexivity|]. intros y N. apply O1. intros ->. apply N. left. reflexivity.
      * destruct F2 as [_ ->]. eexists. split; [apply element_stop; [exact G1|intros; discriminate]|exact G2].
      * destruct F2 as [_ ->]. eexists. split; [apply element_stop; [exact G1|intros; discriminate]|exact G2].
      * destruct F2 as [_ ->]. eexists. split; [apply element_stop; [exact G1|intros; discriminate]|exact G2].
      * destruct F2 as [[] _].
    + intros R' F. inversion F as [|? ? ? ? r1 h1 ? F1 F2|? ? ? ? ? F1 Ne]; subst; fold el in F1;
        destruct (finL_off _ _ _ _ _ _ _ _ idx _ _ _ _ _ (off_sym _ _ _ Of0) Us F1) as [R1 [G1 G2]].
      * destruct R1 as [[[o' r1'] h1']| | | |]; cbn in G2; try contradiction. destruct G2 as (<- & <- & O1).
        destruct (proj2 (Next _ _ _ (off_sym _ _ _ O1) (I3 _ _ _ _ Ir0 G1)) R' F2) as [R [A B]]. exists R. split; [|exact B].
        eexists. split; [exact G1|exact A].
      * exists R1. split.
        -- exists R1. split; [exact G1|]. assert (Nf : R1 <> NoFuel) by apply G1.
           destruct R1 as [[[[|o] r1] h1]|j w h1| | |]; cbn; auto. exfalso.
           destruct R' as [[[o' r1'] h1']| | | |]; cbn in G2; try contradiction. destruct G2 as (-> & -> & _). apply (Ne r1' h1). reflexivity.
        -- apply off_apart, off_res_sym, G2.
Qed.

Lemma array_loop_any x t elem idx arr body p len (I : (nat -> option Z) -> memory -> Prop) r h :
  x <> idx -> uses_any idx body = false -> assigns_any idx body = false ->
  is_addr p -> is_int len -> 0 <= len -> ok8 heap p = true -> (forall i, 0 <= i < len -> ok8 heap (word (p + 8 + 8 * i)) = true) ->
  (forall r h, I r h -> finE r h arr (Val (Some p, h)) /\ load h p = wint len) ->
  (forall r h v, I r h -> I (env_set r x v) h) -> (forall r h v, I r h -> I (env_set r idx v) h) ->
  (forall r h r1 h1, I r h -> finL r h body (Val (ONormal, r1, h1)) -> I r1 h1) -> I r h ->
  same_results [idx] (fun R => finL r h [SDas idx (c_int K) (int_lit K 0); SWhile (ECmp (c_bool K) Lt (EVar (c_int K) idx) (length_of K arr))
       (SAs (EVar t x) (EIndex elem arr (EVar (c_int K) idx)) :: body ++ [inc K (EVar (c_int K) idx) 1])] R)
    (each_element x p (fun r h R => finL r h body R) (upto 0 len) r h).
Proof.
  intros. set (wh := SWhile _ _).
  assert (Ev : forall R, finL r h [SDas idx (c_int K) (int_lit K 0); wh] R <-> finS (env_set r idx (wint 0)) h wh R).
  { intros R. rewrite finL_cons. split.
    - intros [R1 [F1 F2]]. apply finS_das in F1. apply (proj1 (wants_val _ _ _ _ _ _ _ (finE_int r h (c_int K) 0))) in F1. cbv beta in F1. subst R1. cbn in F2. apply finL_one in F2. exact F2.
    - intros F. exists (Val (ONormal, env_set r idx (wint 0), h)). split; [apply finS_das, (wants_val _ _ _ _ _ _ _ (finE_int r h (c_int K) 0)); reflexivity|]. cbn. apply finL_one. exact F. }
  apply (same_ext _ _ _ _ Ev). unfold wh.
  apply element_loop with (I := I) (m := Z.to_nat (len - 0)); auto; try lia.
  - unfold is_int, int_min, int_max; lia.
  - apply off_sym, off_own.
  - apply env_set_same.
Qed.

Lemma array_expr x t a body body' k k' st r h p len I :
  lower K k (XArray x t a body) = Some (st, k') -> lower_body K (S (S k)) body = Some (body', k') ->
  (forall u e, a <> EArrayLit u e) -> occurs (S k) (XArray x t a body) = false ->
  in_heap_array p len -> same_array x a p len body' I -> I r h ->
  same_results [S k] (fun R => finS r h st R) (each_element x p (fun r h R => finL r h body' R) (upto 0 len) r h).
Proof.
  intros L Lb Na O (Ap & Il & Pl & Op & Oe) (S1 & S2 & S3) Ir.
  unfold lower in L. cbn [lower_with] in L. fold (lower_list K []) in L. unfold lower_body in Lb. rewrite Lb in L. inversion L; subst. clear L.
  cbn [occurs] in O. fold (occurs_any (S k)) in O. apply orb_false_iff in O as [O Ob]. apply orb_false_iff in O as [Ox Oa].
  destruct (body_fresh K (S k) _ _ _ _ (Nat.lt_succ_diag_r _) Lb) as (_ & Us & As). specialize (Us Ob). specialize (As (occurs_assigned_any _ _ Ob)).
  assert (Nx : x <> S k). { intros ->. rewrite Nat.eqb_refl in Ox. discriminate. }
  apply same_ext with (P' := fun R => finL r h [SDas (S k) (c_int K) (int_lit K 0); SWhile (ECmp (c_bool K) Lt (EVar (c_int K) (S k)) (length_of K a))
       (SAs (EVar t x) (EIndex t a (EVar (c_int K) (S k))) :: body' ++ [inc K (EVar (c_int K) (S k)) 1])] R).
  { intros R. rewrite finS_block. unfold lower_array. destruct a; try reflexivity. exfalso. eapply Na. reflexivity. }
  eapply array_loop_any with (I := I); eauto.
Qed.

Lemma array_lit x t u e body body' k k' st r h h1 p len :
  lower K k (XArray x t (EArrayLit u e) body) = Some (st, k') -> lower_body K (S (S k)) body = Some (body', k') ->
  occurs k (XArray x t (EArrayLit u e) body) = false -> occurs (S k) (XArray x t (EArrayLit u e) body) = false ->
  finE r h e (Val (Some p, h1)) -> in_heap_array p len -> load h1 p = wint len -> keeps_length p len body' ->
  same_results [k; S k] (fun R => finS r h st R) (each_element x p (fun r h R => finL r h body' R) (upto 0 len) r h1).
Proof.
  intros L Lb O1 O2 Ee (Ap & Il & Pl & Op & Oe) Ll Kl.
  unfold lower in L. cbn [lower_with] in L. fold (lower_list K []) in L. unfold lower_body in Lb. rewrite Lb in L. inversion L; subst. clear L.
  cbn [occurs] in O1, O2. fold (occurs_any k) in O1. fold (occurs_any (S k)) in O2.
  apply orb_false_iff in O1 as [O1 Ob1]. apply orb_false_iff in O1 as [Ox1 Oa1]. apply orb_false_iff in O2 as [O2 Ob2]. apply orb_false_iff in O2 as [Ox2 Oa2].
  destruct (body_fresh K k _ _ _ _ (Nat.lt_lt_succ_r _ _ (Nat.lt_succ_diag_r k)) Lb) as (_ & Us1 & As1). specialize (Us1 Ob1). specialize (As1 (occurs_assigned_any _ _ Ob1)).
  destruct (body_fresh K (S k) _ _ _ _ (Nat.lt_succ_diag_r (S k)) Lb) as (_ & Us2 & As2). specialize (Us2 Ob2). specialize (As2 (occurs_assigned_any _ _ Ob2)).
  assert (Nx1 : x <> k). { intros ->. rewrite Nat.eqb_refl in Ox1. discriminate. }
  assert (Nx2 : x <> S k). { intros ->. rewrite Nat.eqb_refl in Ox2. discriminate. }
  set (r0 := env_set r k p).
  set (loop := [SDas (S k) (c_int K) (int_lit K 0); SWhile (ECmp (c_bool K) Lt (EVar (c_int K) (S k)) (length_of K (EVar (c_int_array K) k)))
       (SAs (EVar t x) (EIndex (c_int K) (EVar (c_int_array K) k) (EVar (c_int K) (S k))) :: body' ++ [inc K (EVar (c_int K) (S k)) 1])]).
  apply same_ext with (P' := fun R => finL r0 h1 loop R).
  { intros R. rewrite finS_block. unfold lower_array. cbv zeta. fold loop. rewrite finL_cons. split.
    - intros [R1 [F1 F2]]. apply finS_das in F1. apply (proj1 (wants_val _ _ _ _ _ _ _ Ee)) in F1. cbv beta in F1. subst R1. exact F2.
    - intros F. exists (Val (ONormal, r0, h1)). split; [apply finS_das, (wants_val _ _ _ _ _ _ _ Ee); reflexivity|exact F]. }
  assert (A : same_results [S k] (fun R => finL r0 h1 loop R) (each_element x p (fun r h R => finL r h body' R) (upto 0 len) r0 h1)).
  { unfold loop. apply array_loop_any with (I := fun r h => r k = Some p /\ load h p = wint len); auto.
    - intros r1 h2 [E1 E2]. split; [apply finE_var, E1|exact E2].
    - intros r1 h2 v [E1 E2]. split; [|exact E2]. unfold env_set. destruct (Nat.eqb_spec x k); [congruence|exact E1].
    - intros r1 h2 v [E1 E2]. split; [|exact E2]. unfold env_set. destruct (Nat.eqb_spec (S k) k); [lia|exact E1].
    - intros r1 h2 r2 h3 [E1 E2] F. split; [rewrite (finL_keeps k _ _ _ _ _ _ As1 F); exact E1|exact (Kl _ _ _ _ E2 F)].
    - split; [apply env_set_same|exact Ll]. }
  (* the slot is not used by the body *)
  assert (B : forall is r r' h, off k r r' -> forall R, each_element x p (fun r h R => finL r h body' R) is r h R ->
     exists R', each_element x p (fun r h R => finL r h body' R) is r' h R' /\ off_res k R R').
  { clear - Us1. induction is as [|i is IH]; intros r r' h Of R F.
    - inversion F; subst. eexists. split; [constructor|]. cbn. auto.
    - inversion F as [|? ? ? ? r1 h1 ? F1 F2|? ? ? ? ? F1 Ne]; subst;
        destruct (finL_off _ _ _ _ _ _ _ _ k _ _ _ _ _ (off_set _ _ _ x (load h (word (p + 8 + 8 * i))) Of) Us1 F1) as [R1 [G1 G2]].
      + destruct R1 as [[[o' r1'] h1']| | | |]; cbn in G2; try contradiction. destruct G2 as (<- & <- & O1).
        destruct (IH _ _ _ O1 _ F2) as [R' [X Y]]. exists R'. split; [|exact Y]. eapply element_next; eassumption.
      + exists R1. split; [|exact G2]. apply element_stop; [exact G1|]. intros r1 h1 ->.
        destruct R as [[[o' r1'] h1']| | | |]; cbn in G2; try contradiction. destruct G2 as (-> & -> & _). apply (Ne r1' h1). reflexivity. }
  destruct A as [A1 A2]. split.
  - intros R F. destruct (A1 R F) as [R1 [X Y]]. destruct (B _ _ _ _ (off_sym _ _ _ (off_own k r p)) _ X) as [R2 [X2 Y2]]. exists R2. split; [exact X2|].
    apply off_apart in Y2. eapply apart_trans; [eapply apart_more; [|exact Y]|eapply apart_more; [|exact Y2]]; intros y [<-|[]]; cbn; auto.
  - intros R' F. destruct (B _ _ _ _ (off_own k r p) _ F) as [R1 [X Y]]. destruct (A2 _ X) as [R [X2 Y2]]. exists R. split; [exact X2|].
    apply off_res_sym, off_apart in Y. eapply apart_trans; [eapply apart_more; [|exact Y2]|eapply apart_more; [|exact Y]]; intros y [<-|[]]; cbn; auto.
Qed.
End Loop.
