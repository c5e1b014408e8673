(** Marking marks exactly the blocks that can be reached. *)
From Coq Require Import ZArith List Bool Lia.
From Verif Require Import Ints X86 GenModel GenSpec GenMem GcModel GcSpec GcHeader.
Import ListNotations.
Open Scope Z_scope.
Ltac Zify.zify_post_hook ::= Z.div_mod_to_equations.

Definition mem (M : list Z) (b : Z) : bool := existsb (Z.eqb b) M.
Lemma mem_in M b : mem M b = true <-> In b M.
Proof. unfold mem. rewrite existsb_exists. split; [intros [x [I E]]; apply Z.eqb_eq in E; subst; exact I|]. intros I. exists b. split; [exact I|apply Z.eqb_refl]. Qed.
Lemma mem_not M b : mem M b = false <-> ~ In b M.
Proof. rewrite <- mem_in. destruct (mem M b); split; intros; congruence. Qed.

Lemma counting_in n x : In x (counting n) <-> 0 <= x < n.
Proof.
  unfold counting. rewrite in_map_iff. split.
  - intros [i [<- I]]. apply in_seq in I. lia.
  - intros H. exists (Z.to_nat x). split; [lia|]. apply in_seq. lia.
Qed.

Section Mark.
Variable table : list type_info.
Variable H0 : memory.
Variable bs : list (Z * Z).
Variable root : Z -> Prop.
Hypothesis Lay : layout bs.
Hypothesis Sound : sound_heap table H0 bs root.
Hypothesis Clean : Forall (unmarked H0) bs.

Lemma place b : In b bs -> 1024 <= fst b /\ fst b mod 8 = 0 /\ 0 < snd b /\ fst b + 16 + snd b <= 4611686018427387904.
Proof. intros I. exact (proj1 (Forall_forall _ _) (proj1 Lay) b I). Qed.
Lemma apart b c : In b bs -> In c bs -> b = c \/ fst b + 16 + snd b <= fst c \/ fst c + 16 + snd c <= fst b.
Proof.
  intros Ib Ic. destruct (ForallOrdPairs_In (proj2 Lay) b c Ib Ic) as [E|[A|A]]; [left; exact E|right; exact A|].
  right. destruct A; auto.
Qed.
Lemma same_start b c : In b bs -> In c bs -> fst b = fst c -> b = c.
Proof. intros Ib Ic E. pose proof (place b Ib). pose proof (place c Ic). destruct (apart b c Ib Ic) as [A|A]; [exact A|lia]. Qed.
Lemma header_addr b : In b bs -> word (fst b + 8) = fst b + 8.
Proof. intros I. pose proof (place b I). apply word_id. unfold is_word. lia. Qed.

Definition painted (M : list Z) (h : memory) : Prop :=
  (forall x, (forall b, In b bs -> x < fst b + 8 \/ fst b + 16 <= x) -> h x = H0 x) /\
  (forall b, In b bs -> exists id, has_header H0 (fst b) id false false /\ has_header h (fst b) id false (mem M (fst b))).

Lemma painted_start : painted [] H0.
Proof.
  split; [reflexivity|]. intros b I. destruct (proj1 (Forall_forall _ _) Clean b I) as [id Hid]. exists id. auto.
Qed.

Lemma header_value h b id ro m : In b bs -> has_header h (fst b) id ro m -> header h (fst b) = header_of id ro m.
Proof.
  intros I [R E]. unfold header. rewrite (header_addr b I), E, ival_wint. apply wrap_id, header_int, R.
Qed.

Lemma paint_one M h b : painted M h -> In b bs -> ~ In (fst b) M ->
  painted (fst b :: M) (set_header h (fst b) (with_mark (header h (fst b)))).
Proof.
  intros [P1 P2] I N. pose proof (place b I) as Pb. destruct (P2 b I) as [id [Ha Hb]]. rewrite (header_value _ _ _ _ _ I Hb).
  apply mem_not in N. rewrite N, with_mark_header. unfold set_header. rewrite (header_addr b I). split.
  - intros x Hx. rewrite store_other; [apply P1, Hx|]. specialize (Hx b I). lia.
  - intros c Ic. pose proof (place c Ic) as Pc. destruct (apart b c I Ic) as [<-|A].
    + exists id. split; [exact Ha|]. split; [apply Hb|]. cbn [mem existsb]. rewrite Z.eqb_refl. cbn [orb].
      rewrite load_store_same. apply word_id, wint_range.
    + destruct (P2 c Ic) as [id' [Hc Hd]]. exists id'. split; [exact Hc|]. split; [apply Hd|].
      rewrite load_store_other by lia. unfold mem. cbn [existsb]. destruct (Z.eqb_spec (fst c) (fst b)); [lia|]. exact (proj2 Hd).
Qed.

Lemma load_data M h b a : painted M h -> In b bs -> inside b a -> load h a = load H0 a.
Proof.
  intros [P _] I [L1 L2]. unfold data in *. apply load_ext. intros i Hi. apply P. intros c Ic. pose proof (place c Ic).
  destruct (apart b c I Ic) as [<-|A]; lia.
Qed.
Lemma load_outside M h a : painted M h -> outside8 bs a -> load h a = load H0 a.
Proof.
  intros [P _] O. apply load_ext. intros i Hi. apply P. intros c Ic. pose proof (place c Ic). specialize (O i Hi c Ic). lia.
Qed.

Lemma children_spec M h b info : painted M h -> In b bs -> fits_type H0 b info ->
  exists l, children h (data (fst b)) info = Some l /\ forall a, In a l <-> pointer_at H0 (data (fst b)) info a.
Proof.
  intros P I [NF [Ar Ins]]. pose proof (place b I) as Pb.
  assert (In_addr : forall a, inside b a -> word a = a).
  { intros a [A1 A2]. unfold data in *. apply word_id. unfold is_word. lia. }
  destruct info as [roots| |e| |]; cbn [children].
  - eexists. split; [reflexivity|].
    assert (Eq : forall r, In r roots -> word (data (fst b) + ival (wint (r * 8))) = data (fst b) + 8 * r).
    { intros r Hr. pose proof (Ins _ (at_field H0 (data (fst b)) roots r Hr)) as In_r. rewrite ival_wint, wrap_id.
      - replace (r * 8) with (8 * r) by lia. apply In_addr, In_r.
      - destruct In_r as [R1 R2]. unfold data in *. unfold is_int, int_min, int_max. lia. }
    intros a. rewrite in_map_iff. split.
    + intros [r [<- Hr]]. rewrite (Eq r Hr). constructor. exact Hr.
    + intros H. inversion H; subst. exists r. split; [apply Eq; assumption|assumption].
  - exists []. split; [reflexivity|]. intros a. split; [intros []|intros H; inversion H].
  - destruct e; [|exists []; split; [reflexivity|]; intros a; split; [intros []|intros H; inversion H]].
    destruct (Ar eq_refl) as [In0 [n [Hn Ln]]]. eexists. split; [reflexivity|].
    rewrite (load_data M h b _ P I In0), Ln, ival_wint, wrap_id by (unfold is_int, int_min, int_max; change (2 ^ 61) with 2305843009213693952 in Hn; lia).
    assert (Eq : forall i, 0 <= i < n -> word (data (fst b) + ival (wint (8 + i * 8))) = data (fst b) + 8 + 8 * i).
    { intros i Hi. pose proof (Ins _ (at_element H0 (data (fst b)) n i Ln Hi)) as In_i. rewrite ival_wint, wrap_id.
      - replace (data (fst b) + (8 + i * 8)) with (data (fst b) + 8 + 8 * i) by lia. apply In_addr, In_i.
      - destruct In_i as [R1 R2]. unfold data in *. unfold is_int, int_min, int_max. lia. }
    intros a. rewrite in_map_iff. split.
    + intros [i [<- Hi]]. apply counting_in in Hi. rewrite (Eq i Hi). econstructor; eassumption.
    + intros H. inversion H as [|n' i Ln' Hi]; subst. assert (n' = n \/ n' <> n) as [->|Ne] by lia.
      * exists i. split; [apply Eq, Hi|]. apply counting_in. exact Hi.
      * exists i. assert (Hi' : 0 <= i < n).
        { assert (E : ival (wint n') = ival (wint n)) by congruence. rewrite !ival_wint in E.
          (* a longer length would have elements outside *)
          destruct (Z_lt_ge_dec i n) as [L|G]; [lia|]. exfalso.
          assert (Hn' : pointer_at H0 (data (fst b)) (ArrayType true) (data (fst b) + 8 + 8 * (n' - 1))) by (econstructor; [eassumption|lia]).
          apply Ins in Hn' as [R1 R2]. unfold data in *. unfold wrap in E. change (2 ^ 61) with 2305843009213693952 in Hn. lia. }
        split; [apply Eq, Hi'|]. apply counting_in. exact Hi'.
  - congruence.
  - exists []. split; [reflexivity|]. intros a. split; [intros []|intros H; inversion H].
Qed.

(** All pointers of a block lead to marked blocks. *)
Definition leads (M : list Z) (w : Z) : Prop := maybe_pointer w -> forall b, In b bs -> w = data (fst b) -> In (fst b) M.
Definition settled (M : list Z) (b : Z * Z) : Prop :=
  forall info a, typed table H0 b info -> pointer_at H0 (data (fst b)) info a -> leads M (load H0 a).
Lemma leads_incl M M' w : incl M M' -> leads M w -> leads M' w.
Proof. intros I L P b Ib E. apply I, (L P b Ib E). Qed.
Lemma settled_incl M M' b : incl M M' -> settled M b -> settled M' b.
Proof. intros I S info a T P. apply (leads_incl M M' _ I), (S info a T P). Qed.

Definition subset (M : list Z) : Prop := NoDup M /\ forall x, In x M -> exists b, In b bs /\ fst b = x.
Lemma subset_length M : subset M -> (length M <= length bs)%nat.
Proof.
  intros [N S]. rewrite <- (map_length fst bs). apply NoDup_incl_length; [exact N|]. intros x Hx.
  destruct (S x Hx) as [b [I E]]. subst. apply in_map, I.
Qed.

Definition better (M M' : list Z) : Prop :=
  subset M' /\ incl M M' /\
  forall b, In b bs -> In (fst b) M' -> In (fst b) M \/ (reach table H0 bs root (data (fst b)) /\ settled M' b).
Lemma better_refl M : subset M -> better M M.
Proof. intros S. split; [exact S|]. split; [apply incl_refl|]. auto. Qed.
Lemma better_trans M1 M2 M3 : better M1 M2 -> better M2 M3 -> better M1 M3.
Proof.
  intros [S1 [I1 B1]] [S2 [I2 B2]]. split; [exact S2|]. split; [eapply incl_tran; eassumption|].
  intros b I Hb. destruct (B2 b I Hb) as [H|H]; [|right; exact H]. destruct (B1 b I H) as [H'|[R S]]; [left; exact H'|].
  right. split; [exact R|]. eapply settled_incl; eassumption.
Qed.

Definition marks (fuel : nat) : Prop := forall M h p, painted M h -> subset M -> reach table H0 bs root p ->
  (length bs - length M < fuel)%nat ->
  exists M' h', mark_pointer table fuel h p = Done h' /\ painted M' h' /\ better M M' /\ leads M' p.

Definition mark_list (fuel : nat) := fix mark_all (h : memory) (l : list Z) {struct l} : outcome memory :=
  match l with
  | [] => Done h
  | a :: r => match mark_pointer table fuel h (load h a) with Done h => mark_all h r | o => o end
  end.

Lemma mark_list_ok fuel : marks fuel -> forall l M h, painted M h -> subset M ->
  (forall a, In a l -> (forall M h, painted M h -> load h a = load H0 a) /\ reach table H0 bs root (load H0 a)) ->
  (length bs - length M < fuel)%nat ->
  exists M' h', mark_list fuel h l = Done h' /\ painted M' h' /\ better M M' /\ forall a, In a l -> leads M' (load H0 a).
Proof.
  intros Mk. induction l as [|a l IH]; intros M h P S A L.
  - exists M, h. split; [reflexivity|]. split; [exact P|]. split; [apply better_refl, S|]. intros a [].
  - destruct (A a (or_introl eq_refl)) as [E R]. cbn [mark_list]. rewrite (E M h P).
    destruct (Mk M h _ P S R L) as [M1 [h1 [E1 [P1 [B1 L1]]]]]. rewrite E1.
    assert (Le : (length M <= length M1)%nat) by (apply NoDup_incl_length; [apply S|apply B1]).
    destruct (IH M1 h1 P1 (proj1 B1) (fun a' I => A a' (or_intror I)) ltac:(lia)) as [M2 [h2 [E2 [P2 [B2 L2]]]]].
    exists M2, h2. split; [exact E2|]. split; [exact P2|]. split; [eapply better_trans; eassumption|].
    intros a' [<-|I]; [|apply L2, I]. eapply leads_incl; [apply B2|exact L1].
Qed.

Lemma type_info_of id info : 0 <= id -> nth_error table (Z.to_nat id) = Some info -> type_info_at table id = Some info.
Proof. intros H E. unfold type_info_at. destruct (Z.ltb_spec id 0); [lia|exact E]. Qed.

Lemma mark_pointer_step fuel h p : mark_pointer table (S fuel) h p =
  if negb (is_real p) then Done h
  else
    let b := word (p - 16) in
    match type_info_at table (type_id (header h b)) with
    | None => BadIndex
    | Some info =>
      if read_only (header h b) then Done h
      else if marked (header h b) then Done h
      else
        match set_mark h b with
        | Done h => match children h p info with None => Panic | Some l => mark_list fuel h l end
        | o => o
        end
    end.
Proof. reflexivity. Qed.

Lemma mark_ok : forall fuel, marks fuel.
Proof.
  induction fuel as [|fuel IH]; intros M h p P S R L; [lia|].
  rewrite mark_pointer_step. destruct (is_real p) eqn:Re; cbn [negb].
  2:{ exists M, h. split; [reflexivity|]. split; [exact P|]. split; [apply better_refl, S|]. intros Mp. apply is_real_spec in Mp. congruence. }
  apply is_real_spec in Re. cbv zeta.
  destruct (Sound p R Re) as [[Rg [id [m [Hh [Lt Out]]]]]|[b [info [I [-> T]]]]].
  - (* a constant *)
    assert (Wp : word (p - 16) = p - 16) by (apply word_id; unfold is_word; change (2 ^ 62) with 4611686018427387904 in Rg; lia).
    assert (Wh : word (p - 16 + 8) = p - 8) by (replace (p - 16 + 8) with (p - 8) by lia; apply word_id; unfold is_word; change (2 ^ 62) with 4611686018427387904 in Rg; lia).
    assert (Hv : header h (word (p - 16)) = header_of id true m).
    { unfold header. rewrite Wp, Wh, (load_outside M h _ P Out). destruct Hh as [Rid E]. replace (p - 16 + 8) with (p - 8) in E by lia.
      rewrite E, ival_wint. apply wrap_id, header_int, Rid. }
    rewrite Hv, type_id_header, read_only_header_of.
    destruct (nth_error table (Z.to_nat id)) as [info|] eqn:Ni; [|apply nth_error_None in Ni; lia].
    rewrite (type_info_of id info (proj1 (proj1 Hh)) Ni).
    exists M, h. split; [reflexivity|]. split; [exact P|]. split; [apply better_refl, S|].
    intros _ b I E. exfalso. pose proof (place b I). specialize (Out 0 ltac:(lia) b I). unfold data in E. lia.
  - (* a block *)
    assert (Pl := place b I).
    assert (Wp : word (data (fst b) - 16) = fst b) by (unfold data; replace (fst b + 16 - 16) with (fst b) by lia; apply word_id; unfold is_word; lia).
    rewrite Wp. destruct T as [id [Hid [Nid Fit]]]. destruct (proj2 P b I) as [id' [Hid' Hh]].
    assert (id' = id) as ->.
    { assert (E : header H0 (fst b) = header H0 (fst b)) by reflexivity.
      rewrite (header_value _ _ _ _ _ I Hid) in E at 1. rewrite (header_value _ _ _ _ _ I Hid') in E.
      apply (f_equal type_id) in E. rewrite !type_id_header in E. congruence. }
    rewrite (header_value _ _ _ _ _ I Hh), type_id_header, read_only_header_of, marked_header, (type_info_of id info (proj1 (proj1 Hid)) Nid).
    destruct (mem M (fst b)) eqn:Mb.
    + exists M, h. split; [reflexivity|]. split; [exact P|]. split; [apply better_refl, S|].
      intros _ c Ic E. unfold data in E. replace (fst c) with (fst b) by lia. apply mem_in, Mb.
    + assert (Nin := proj1 (mem_not M (fst b)) Mb).
      unfold set_mark. rewrite (header_value _ _ _ _ _ I Hh), marked_header.
      rewrite <- (header_value _ _ _ _ _ I Hh). pose proof (paint_one M h b P I Nin) as P1.
      destruct (children_spec _ _ b info P1 I Fit) as [l [El Hl]]. rewrite El.
      assert (S1 : subset (fst b :: M)).
      { split; [constructor; [exact Nin|apply S]|]. intros x [<-|Hx]; [exists b; auto|apply S, Hx]. }
      assert (Lb := subset_length _ S1). cbn [length] in Lb.
      assert (T : typed table H0 b info) by (exists id; auto).
      destruct (mark_list_ok fuel IH l _ _ P1 S1) as [M' [h' [E' [P' [B' L']]]]].
      * intros a Ha. apply Hl in Ha. split.
        -- intros M2 h2 P2. apply (load_data M2 h2 b a P2 I). apply (proj2 (proj2 Fit)), Ha.
        -- eapply reach_pointer; eassumption.
      * cbn [length]. lia.
      * exists M', h'. split; [exact E'|]. split; [exact P'|]. split.
        -- split; [apply B'|]. split; [intros x Hx; apply B'; right; exact Hx|].
           intros c Ic Hc. destruct (proj2 (proj2 B') c Ic Hc) as [[E|Hm]|Hn]; [|left; exact Hm|right; exact Hn].
           right. assert (c = b) as -> by (apply same_start; auto). split; [exact R|].
           intros info' a T' Pa. assert (info' = info) as ->.
           { destruct T' as [id2 [Hid2 [Nid2 _]]]. assert (id2 = id); [|congruence].
             assert (E2 : header H0 (fst b) = header H0 (fst b)) by reflexivity.
             rewrite (header_value _ _ _ _ _ I Hid2) in E2 at 1. rewrite (header_value _ _ _ _ _ I Hid) in E2.
             apply (f_equal type_id) in E2. rewrite !type_id_header in E2. exact E2. }
           apply L', Hl, Pa.
        -- intros _ c Ic E. unfold data in E. apply B'. left. lia.
Qed.
End Mark.
