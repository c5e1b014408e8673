(** Frames, sweeping, and whole collections. *)
From Coq Require Import ZArith List Bool Lia.
From Verif Require Import Ints X86 GenModel GenSpec GenMem GcModel GcSpec GcHeader GcMark.
Import ListNotations.
Open Scope Z_scope.
Ltac Zify.zify_post_hook ::= Z.div_mod_to_equations.

Lemma map_counting (f : Z -> Z) (l : list Z) : (forall i o, nth_error l i = Some o -> f (Z.of_nat i) = o) ->
  map f (counting (Z.of_nat (length l))) = l.
Proof.
  unfold counting. rewrite Nat2Z.id, map_map. revert f. induction l as [|a l IH]; intros f H; [reflexivity|].
  cbn [length List.seq map]. f_equal; [apply (H 0%nat); reflexivity|].
  rewrite <- seq_shift, map_map. rewrite <- (IH (fun z => f (z + 1))) at 2.
  - apply map_ext. intros i. f_equal. lia.
  - intros i o E. replace (Z.of_nat i + 1) with (Z.of_nat (S i)) by lia. apply H. exact E.
Qed.

Section Collect.
Variable table : list type_info.
Variable H0 : memory.
Variable bs : list (Z * Z).
Variable root : Z -> Prop.
Hypothesis Lay : layout bs.
Hypothesis Sound : sound_heap table H0 bs root.
Hypothesis Clean : Forall (unmarked H0) bs.
Notation painted := (painted H0 bs).
Notation better := (better table H0 bs root).
Notation leads := (leads bs).
Notation subset := (subset bs).

Lemma frame_roots_ok M h fp offs : painted M h -> gc_map H0 bs fp offs -> frame_roots h fp = offs.
Proof.
  intros P [O1 [O2 [O3 [F1 [F2 [Ln [Lr [Lb El]]]]]]]].
  unfold frame_roots. rewrite word_id by (unfold is_word; change (2 ^ 64) with 18446744073709551616 in F2; lia).
  rewrite (load_outside H0 bs Lay M h _ P O1), (load_outside H0 bs Lay M h _ P O2).
  unfold int_array. set (arr := load H0 (load H0 (fp + 8))) in *.
  rewrite (load_outside H0 bs Lay M h _ P O3), Ln, ival_wint.
  rewrite wrap_id by (unfold is_int, int_min, int_max; change (2 ^ 62) with 4611686018427387904 in Lb; lia).
  apply map_counting. intros i o E. destruct (El i o E) as [V [R Out]].
  assert (i < length offs)%nat by (apply nth_error_Some; rewrite E; discriminate).
  assert (Ra : is_word arr) by apply load_range. unfold is_word in Ra. change (2 ^ 64) with 18446744073709551616 in Lr.
  rewrite word_id by (unfold is_word; lia). rewrite (load_outside H0 bs Lay M h _ P Out), V, ival_wint. apply wrap_id.
  unfold is_int, int_min, int_max. change (2 ^ 57) with 144115188075855872 in R. lia.
Qed.

Lemma mark_slots_list fuel : forall l h, mark_slots table fuel h l = mark_list table fuel h l.
Proof. induction l as [|a l IH]; intros h; [reflexivity|]. cbn. destruct (mark_pointer table fuel h (load h a)); auto. Qed.

Lemma frames_ok base fp slots : frames H0 bs base fp slots -> exists n, forall fuel rounds, (length bs < fuel)%nat -> (n <= rounds)%nat ->
  (forall a, In a slots -> reach table H0 bs root (load H0 a)) -> forall M h, painted M h -> subset M ->
  exists M' h', mark_frames table fuel rounds h base fp (frame_roots h fp) = Done h' /\ painted M' h' /\ better M M' /\
    forall a, In a slots -> leads M' (load H0 a).
Proof.
  induction 1 as [|fp offs slots Ne Gm Of Os _ IH].
  - exists O. intros fuel rounds _ _ _ M h P S. exists M, h.
    destruct rounds; cbn [mark_frames]; rewrite Z.eqb_refl; (split; [reflexivity|]); (split; [exact P|]); (split; [apply better_refl, S|]); intros a [].
  - destruct IH as [n IH]. exists (S n). intros fuel rounds Lf Lr Rs M h P S.
    destruct rounds as [|rounds]; [lia|]. cbn [mark_frames]. destruct (Z.eqb_spec fp base) as [E|_]; [congruence|].
    rewrite (frame_roots_ok M h fp offs P Gm), (load_outside H0 bs Lay M h fp P Of).
    assert (Es : map (slot (load H0 fp)) offs = map (fun o => load H0 fp - 8 * o) offs).
    { apply map_ext_in. intros o Ho. destruct (Os o Ho) as [G _]. destruct (In_nth_error _ _ Ho) as [i Ei].
      destruct Gm as [_ [_ [_ [_ [_ [_ [_ [_ El]]]]]]]]. destruct (El i o Ei) as [_ [R _]]. change (2 ^ 57) with 144115188075855872 in R.
      unfold slot. rewrite ival_wint, wrap_id by (unfold is_int, int_min, int_max; lia).
      replace (load H0 fp + - o * 8) with (load H0 fp - 8 * o) by lia. apply word_id.
      pose proof (load_range H0 fp) as Ra. unfold is_word in *. lia. }
    rewrite Es, mark_slots_list.
    destruct (mark_list_ok table H0 bs root fuel (mark_ok table H0 bs root Lay Sound fuel) (map (fun o => load H0 fp - 8 * o) offs) M h P S) as [M1 [h1 [E1 [P1 [B1 L1]]]]].
    + intros a Ha. split; [|apply Rs, in_or_app; left; exact Ha].
      apply in_map_iff in Ha as [o [<- Ho]]. intros M2 h2 P2. apply (load_outside H0 bs Lay M2 h2 _ P2). apply Os, Ho.
    + lia.
    + rewrite E1. destruct (IH fuel rounds Lf ltac:(lia) (fun a Ha => Rs a (in_or_app _ _ _ (or_intror Ha))) M1 h1 P1 (proj1 B1)) as [M2 [h2 [E2 [P2 [B2 L2]]]]].
      exists M2, h2. split; [exact E2|]. split; [exact P2|]. split; [eapply better_trans; eassumption|].
      intros a Ha. apply in_app_or in Ha as [Ha|Ha]; [|apply L2, Ha]. eapply leads_incl; [apply B2|apply L1, Ha].
Qed.

(** The marked blocks at the end. *)
Lemma marked_reach M : better [] M -> (forall w, root w -> leads M w) ->
  forall b, In b bs -> mem M (fst b) = true <-> reach table H0 bs root (data (fst b)).
Proof.
  intros [S [_ B]] Rl.
  assert (Pd : forall b, In b bs -> maybe_pointer (data (fst b))).
  { intros b I. pose proof (place bs Lay b I). unfold maybe_pointer, data. change (2 ^ 63) with 9223372036854775808. change (2 ^ 62) with 4611686018427387904. lia. }
  assert (All : forall w, reach table H0 bs root w -> leads M w).
  { induction 1 as [w Hw|b info a I _ IH T Pa]; [apply Rl, Hw|].
    assert (Im : In (fst b) M) by (apply (IH (Pd b I) b I eq_refl)).
    destruct (B b I Im) as [[]|[_ Se]]. exact (Se info a T Pa). }
  intros b I. rewrite mem_in. split.
  - intros Im. destruct (B b I Im) as [[]|[R _]]. exact R.
  - intros R. exact (All _ R (Pd b I) b I eq_refl).
Qed.

(* -------------------------------------------------------------------- sweeping *)

Variable free : memory -> Z -> memory.
Hypothesis free_ok : forall h b x, In b bs -> x < fst b \/ fst b + 16 + snd b <= x -> free h (fst b) x = h x.
Variable M : list Z.
Notation keep := (fun b : Z * Z => mem M (fst b)).

(** The part of the list already dealt with ends at [b]. *)
Fixpoint segment (h : memory) (first : Z) (ks : list (Z * Z)) (b : Z) : Prop :=
  match ks with [] => first = b | k :: r => first = fst k /\ segment h (load h (fst k)) r b end.
Definition data_same (h : memory) (b : Z * Z) : Prop := forall x, fst b + 16 <= x < fst b + 16 + snd b -> h x = H0 x.
Record between (h : memory) (head b : Z) (ks rest : list (Z * Z)) : Prop := {
  bt_in : incl ks bs /\ incl rest bs;
  bt_apart : forall k c, In k ks -> In c rest -> k <> c;
  bt_nodup : NoDup ks /\ NoDup rest;
  bt_kept : forall k, In k ks -> load h (fst k + 8) = load H0 (fst k + 8) /\ data_same h k;
  bt_rest : forall c, In c rest -> load h (fst c) = load H0 (fst c) /\ data_same h c /\
    exists id, has_header H0 (fst c) id false false /\ has_header h (fst c) id false (mem M (fst c));
  bt_outside : forall x, outside bs x -> h x = H0 x;
  bt_segment : segment h head ks b;
  bt_chain : chain h b rest }.

Lemma chain_ext h h' bl : (forall c, In c bl -> load h' (fst c) = load h (fst c)) -> forall b, chain h b bl -> chain h' b bl.
Proof.
  induction bl as [|c bl IH]; intros E b C; [exact C|]. destruct C as [-> C]. split; [reflexivity|].
  rewrite (E c (or_introl eq_refl)). apply IH; [intros d I; apply E; right; exact I|exact C].
Qed.
Lemma segment_ext h h' b : forall ks first, (forall c, In c ks -> load h' (fst c) = load h (fst c)) -> segment h first ks b -> segment h' first ks b.
Proof.
  induction ks as [|c ks IH]; intros first E C; [exact C|]. destruct C as [-> C]. split; [reflexivity|].
  rewrite (E c (or_introl eq_refl)). apply IH; [intros d I; apply E; right; exact I|exact C].
Qed.
Lemma segment_snoc h c b ks : forall first, segment h first ks (fst c) -> load h (fst c) = b -> segment h first (ks ++ [c]) b.
Proof.
  induction ks as [|k ks IH]; intros first C E; cbn in *; [auto|]. destruct C as [-> C]. split; [reflexivity|]. apply IH; assumption.
Qed.

Lemma valid_block b : In b bs -> is_valid_block (fst b) = true.
Proof.
  intros I. pose proof (place bs Lay b I) as P. unfold is_valid_block, ival. rewrite signed_small by lia. apply negb_true_iff, Z.eqb_neq. lia.
Qed.

(** Storing the end of the list into the last block kept. *)
Lemma segment_relink h ks c b v : forall first, segment h first (ks ++ [c]) b -> incl (ks ++ [c]) bs -> NoDup (ks ++ [c]) -> is_word v ->
  segment (store h (fst c) v) first (ks ++ [c]) v.
Proof.
  induction ks as [|k ks IH]; intros first Sg Ib Nd Hv; cbn in *.
  - destruct Sg as [-> _]. split; [reflexivity|]. rewrite load_store_same. apply word_id, Hv.
  - destruct Sg as [-> Sg]. inversion Nd as [|? ? Nk Nd']; subst. split; [reflexivity|].
    assert (Ik : In k bs) by (apply Ib; left; reflexivity). assert (Ic : In c bs) by (apply Ib; right; apply in_or_app; right; left; reflexivity).
    assert (k <> c) by (intros ->; apply Nk, in_or_app; right; left; reflexivity).
    pose proof (place bs Lay k Ik). pose proof (place bs Lay c Ic).
    rewrite load_store_other; [|destruct (apart bs Lay k c Ik Ic); [congruence|lia]].
    apply IH; [exact Sg|intros x Hx; apply Ib; right; exact Hx|exact Nd'|exact Hv].
Qed.

Lemma sweep_ok : forall rest fuel h head ks b freed, between h head b ks rest -> (length rest <= fuel)%nat ->
  exists h' head', sweep_from free fuel h head (last (map fst ks) empty_block) b freed =
      Done (h', head', rev (map fst (filter (fun b => negb (keep b)) rest)) ++ freed) /\
    exists e, (e = 0 \/ e = 1) /\ between h' head' e (ks ++ filter keep rest) [].
Proof.
  induction rest as [|c rest IH]; intros fuel h head ks b freed Bt Lf.
  - exists h, head. destruct Bt as [[Bi _] Ba [Bn _] Bk _ Bo Bs Bc]. cbn in Bc.
    assert (Iv : is_valid_block b = false) by (destruct Bc as [->| ->]; reflexivity).
    split; [destruct fuel; cbn [sweep_from]; rewrite Iv; reflexivity|].
    exists b. split; [exact Bc|]. cbn [filter]. rewrite app_nil_r. constructor; auto.
    + split; [exact Bi|intros x []].
    + split; [exact Bn|constructor].
    + intros c [].
  - destruct Bt as [[Bi Bj] Ba [Bn Bm] Bk Br Bo Bs [-> Bc]]. destruct fuel as [|fuel]; [cbn in Lf; lia|].
    inversion Bm as [|? ? Nc Nr]; subst.
    assert (Ic : In c bs) by (apply Bj; left; reflexivity). assert (Pc := place bs Lay c Ic).
    assert (Far : forall d, In d bs -> d <> c -> fst c + 16 + snd c <= fst d \/ fst d + 16 + snd d <= fst c).
    { intros d Id Nd. destruct (apart bs Lay c d Ic Id); [congruence|assumption]. }
    assert (Frest : forall d, In d rest -> d <> c) by (intros d Hd ->; exact (Nc Hd)).
    assert (Fks : forall d, In d ks -> d <> c) by (intros d Hd; exact (Ba d c Hd (or_introl eq_refl))).
    destruct (Br c (or_introl eq_refl)) as [Rn [Rd [id [Hi Hh]]]].
    cbn [sweep_from]. rewrite (valid_block c Ic). cbn [negb]. rewrite (header_value bs Lay _ _ _ _ _ Ic Hh), marked_header.
    cbn [filter map]. destruct (mem M (fst c)) eqn:Kc; cbn [negb].
    + (* kept *)
      unfold clear_mark. rewrite (header_value bs Lay _ _ _ _ _ Ic Hh), marked_header. cbn [negb].
      rewrite without_mark_header. unfold set_header. rewrite (header_addr bs Lay c Ic).
      set (h1 := store h (fst c + 8) (wint (header_of id false false))).
      assert (Ln : forall d, In d bs -> load h1 (fst d) = load h (fst d)).
      { intros d Id. unfold h1. pose proof (place bs Lay d Id). apply load_store_other. destruct (apart bs Lay c d Ic Id) as [<-|]; lia. }
      unfold next. rewrite (Ln c Ic).
      assert (B1 : between h1 head (load h (fst c)) (ks ++ [c]) rest).
      { constructor.
        - split; [intros x Hx; apply in_app_or in Hx as [Hx|[<-|[]]]; [apply Bi, Hx|exact Ic]|intros x Hx; apply Bj; right; exact Hx].
        - intros k d Hk Hd. apply in_app_or in Hk as [Hk|[<-|[]]]; [apply Ba; [exact Hk|right; exact Hd]|intros <-; exact (Nc Hd)].
        - split; [|exact Nr]. apply NoDup_rev in Bn. rewrite <- (rev_involutive (ks ++ [c])). apply NoDup_rev. rewrite rev_app_distr. cbn. constructor; [|exact Bn].
          rewrite <- in_rev. intros Hk. exact (Fks c Hk eq_refl).
        - intros k Hk. apply in_app_or in Hk as [Hk|[<-|[]]].
          + destruct (Bk k Hk) as [K1 K2]. pose proof (Far k (Bi k Hk) (Fks k Hk)). pose proof (place bs Lay k (Bi k Hk)). unfold h1. split.
            * rewrite load_store_other by lia. exact K1.
            * intros x Hx. rewrite store_other by lia. apply K2, Hx.
          + unfold h1. split; [rewrite load_store_same, word_id by apply wint_range; destruct Hi as [_ Hi]; rewrite Hi; reflexivity|].
            intros x Hx. rewrite store_other by lia. apply Rd, Hx.
        - intros d Hd. destruct (Br d (or_intror Hd)) as [D1 [D2 [id' [D3 D4]]]].
          pose proof (Far d (Bj d (or_intror Hd)) (Frest d Hd)). pose proof (place bs Lay d (Bj d (or_intror Hd))). split; [|split].
          + rewrite Ln by (apply Bj; right; exact Hd). exact D1.
          + intros x Hx. unfold h1. rewrite store_other by lia. apply D2, Hx.
          + exists id'. split; [exact D3|]. split; [apply D4|]. unfold h1. rewrite load_store_other by lia. apply D4.
        - intros x Hx. unfold h1. rewrite store_other; [apply Bo, Hx|]. specialize (Hx c Ic). lia.
        - apply segment_snoc; [|apply Ln, Ic]. apply (segment_ext h h1); [|exact Bs]. intros d Hd. apply Ln, Bi, Hd.
        - apply (chain_ext h h1); [|exact Bc]. intros d Hd. apply Ln, Bj. right. exact Hd. }
      destruct (IH fuel h1 head (ks ++ [c]) (load h (fst c)) freed B1 ltac:(cbn in Lf; lia)) as [h' [head' [E R]]].
      exists h', head'. split.
      * rewrite map_app in E. cbn [map] in E. rewrite last_last in E. exact E.
      * rewrite <- app_assoc in R. exact R.
    + (* freed *)
      assert (Wn : is_word (load h (fst c))) by apply load_range.
      assert (Step : forall h1 head1, 
        (if is_valid_block (last (map fst ks) empty_block) then (set_next h (last (map fst ks) empty_block) (next h (fst c)), head) else (h, next h (fst c))) = (h1, head1) ->
        load h1 (fst c) = load h (fst c) /\ between (free h1 (fst c)) head1 (load h (fst c)) ks rest).
      { intros h1 head1 E.
        assert (G : (forall d, In d rest -> load h1 (fst d) = load h (fst d)) /\ load h1 (fst c) = load h (fst c) /\
          (forall x, (forall k, In k ks -> x < fst k \/ fst k + 8 <= x) -> h1 x = h x) /\ segment h1 head1 ks (load h (fst c))).
        { assert (Cs : ks = [] \/ exists ks' k, ks = ks' ++ [k]).
          { destruct ks as [|k0 ks0]; [left; reflexivity|]. right. destruct (exists_last (l := k0 :: ks0)) as [ks' [k Ek]]; [discriminate|]. eauto. }
          destruct Cs as [->|[ks' [k ->]]].
          - cbn in E. inversion E; subst. repeat split; auto.
          - rewrite map_app in E. cbn [map] in E. rewrite last_last in E.
            assert (Ik : In k bs) by (apply Bi, in_or_app; right; left; reflexivity).
            assert (Hk : In k (ks' ++ [k])) by (apply in_or_app; right; left; reflexivity).
            rewrite (valid_block k Ik) in E. unfold set_next, next in E. inversion E; subst. clear E. pose proof (place bs Lay k Ik) as Pk.
            split; [|split; [|split]].
            + intros d Hd. assert (Id : In d bs) by (apply Bj; right; exact Hd). pose proof (place bs Lay d Id). apply load_store_other.
              pose proof (Ba k d Hk (or_intror Hd)). destruct (apart bs Lay k d Ik Id); [congruence|lia].
            + apply load_store_other. pose proof (Far k Ik (Fks k Hk)). lia.
            + intros x Hx. apply store_other. specialize (Hx k Hk). lia.
            + eapply segment_relink; eassumption. }
        destruct G as [G1 [G2 [G3 G4]]]. split; [exact G2|].
        assert (Fr : forall d, In d bs -> d <> c -> load (free h1 (fst c)) (fst d) = load h1 (fst d)).
        { intros d Id Nd. pose proof (Far d Id Nd). pose proof (place bs Lay d Id). apply load_ext. intros i Hlt. apply free_ok; [exact Ic|lia]. }
        assert (Fh : forall d, In d bs -> d <> c -> load (free h1 (fst c)) (fst d + 8) = load h (fst d + 8)).
        { intros d Id Nd. pose proof (Far d Id Nd). pose proof (place bs Lay d Id). apply load_ext. intros i Hlt.
          rewrite free_ok by (try exact Ic; lia). apply G3. intros k Hk. pose proof (place bs Lay k (Bi k Hk)). destruct (apart bs Lay k d (Bi k Hk) Id) as [<-|]; lia. }
        assert (Fd : forall d x, In d bs -> d <> c -> fst d + 16 <= x < fst d + 16 + snd d -> free h1 (fst c) x = h x).
        { intros d x Id Nd Hx. pose proof (Far d Id Nd). rewrite free_ok by (try exact Ic; lia). apply G3. intros k Hk.
          pose proof (place bs Lay k (Bi k Hk)). destruct (apart bs Lay k d (Bi k Hk) Id) as [<-|]; lia. }
        constructor.
        - split; [exact Bi|]. intros x Hx. apply Bj. right. exact Hx.
        - intros k d Hk Hd. apply Ba; [exact Hk|right; exact Hd].
        - split; assumption.
        - intros k Hk. destruct (Bk k Hk) as [K1 K2]. split; [rewrite Fh by auto; exact K1|].
          intros x Hx. rewrite (Fd k x) by auto. apply K2, Hx.
        - intros d Hd. assert (Id : In d bs) by (apply Bj; right; exact Hd). destruct (Br d (or_intror Hd)) as [D1 [D2 [id' [D3 D4]]]]. split; [|split].
          + rewrite Fr by auto. rewrite G1 by exact Hd. exact D1.
          + intros x Hx. rewrite (Fd d x) by auto. apply D2, Hx.
          + exists id'. split; [exact D3|]. split; [apply D4|]. rewrite Fh by auto. apply D4.
        - intros x Hx. rewrite free_ok by (try exact Ic; apply Hx, Ic). rewrite G3; [apply Bo, Hx|].
          intros k Hk. specialize (Hx k (Bi k Hk)). pose proof (place bs Lay k (Bi k Hk)). lia.
        - apply (segment_ext h1); [|exact G4]. intros d Hd. apply Fr; auto.
        - apply (chain_ext h); [|exact Bc]. intros d Hd. assert (Id : In d bs) by (apply Bj; right; exact Hd). rewrite Fr by auto. apply G1, Hd. }
      destruct (if is_valid_block (last (map fst ks) empty_block) then (set_next h (last (map fst ks) empty_block) (next h (fst c)), head) else (h, next h (fst c))) as [h1 head1] eqn:E1.
      destruct (Step h1 head1 eq_refl) as [N1 B1]. unfold next at 1. rewrite N1.
      destruct (IH fuel _ head1 ks (load h (fst c)) (fst c :: freed) B1 ltac:(cbn in Lf; lia)) as [h' [head' [E R]]].
      exists h', head'. split; [|exact R]. rewrite E. cbn [map rev]. rewrite <- app_assoc. reflexivity.
Qed.
End Collect.

Lemma segment_chain h e : (e = 0 \/ e = 1) -> forall ks first, segment h first ks e -> chain h first ks.
Proof.
  intros He. induction ks as [|k ks IH]; intros first S; cbn in *; [subst; exact He|]. destruct S as [-> S]. split; [reflexivity|apply IH, S].
Qed.

Lemma chain_nodup bs : layout bs -> NoDup bs.
Proof.
  intros [Fp Fo]. induction Fo as [|b bs Hb Fo IH]; [constructor|]. inversion Fp as [|? ? Pb Pr]; subst. constructor; [|apply IH, Pr].
  intros I. pose proof (proj1 (Forall_forall _ _) Hb b I) as A. destruct Pb as [_ [_ [Ps _]]]. unfold apart_from in A. lia.
Qed.

Definition roots_from (h : memory) (slots : list Z) (runtime : Z) (w : Z) : Prop :=
  w = runtime \/ exists a, In a slots /\ w = load h a.

Lemma collect table free h bs base fp runtime head slots :
  layout bs -> chain h head bs -> Forall (unmarked h) bs -> frames h bs base fp slots ->
  sound_heap table h bs (roots_from h slots runtime) ->
  (forall m b x, In b bs -> x < fst b \/ fst b + 16 + snd b <= x -> free m (fst b) x = m x) ->
  exists n, forall fuel rounds, (n <= fuel)%nat -> (n <= rounds)%nat ->
  exists keep h' head',
    gc table free fuel rounds h base fp runtime head = Done (h', head', rev (map fst (filter (fun b => negb (keep b)) bs))) /\
    (forall b, In b bs -> keep b = true <-> reach table h bs (roots_from h slots runtime) (data (fst b))) /\
    chain h' head' (filter keep bs) /\
    (forall b, In b (filter keep bs) -> load h' (fst b + 8) = load h (fst b + 8) /\
       forall x, data (fst b) <= x < data (fst b) + snd b -> h' x = h x) /\
    (forall x, outside bs x -> h' x = h x).
Proof.
  intros Lay Ch Cl Fr So Fo. set (root := roots_from h slots runtime) in *.
  destruct (frames_ok table h bs root Lay So base fp slots Fr) as [n0 Mf].
  assert (Rs : forall a, In a slots -> reach table h bs root (load h a)) by (intros a Ha; apply reach_root; right; exists a; auto).
  assert (Sub0 : subset bs []) by (split; [constructor|intros x []]).
  exists (S (n0 + length bs)). intros fuel rounds Lf Lr.
  destruct (Mf fuel rounds ltac:(lia) ltac:(lia) Rs [] h (painted_start h bs Cl) Sub0) as [M1 [h1 [E1 [P1 [B1 L1]]]]].
  destruct (mark_ok table h bs root Lay So fuel M1 h1 runtime P1 (proj1 B1)) as [M [h2 [E2 [P2 [B2 L2]]]]]; [apply reach_root; left; reflexivity|lia|].
  assert (B : better table h bs root [] M) by (eapply better_trans; eassumption).
  assert (Ld : forall w, root w -> leads bs M w).
  { intros w [->|[a [Ha ->]]]; [exact L2|]. eapply leads_incl; [apply B2|apply L1, Ha]. }
  assert (Bt : between h bs M h2 head head [] bs).
  { assert (Same : forall c x, In c bs -> fst c <= x < fst c + 8 \/ fst c + 16 <= x < fst c + 16 + snd c -> h2 x = h x).
    { intros c x Ic Hx. apply (proj1 P2). intros d Id. pose proof (place bs Lay c Ic). pose proof (place bs Lay d Id). destruct (apart bs Lay c d Ic Id) as [<-|]; lia. }
    constructor.
    - split; [intros x []|apply incl_refl].
    - intros k c [].
    - split; [constructor|apply chain_nodup, Lay].
    - intros k [].
    - intros c Ic. split; [|split].
      + apply load_ext. intros i Hi. apply (Same c _ Ic). lia.
      + intros x Hx. apply (Same c _ Ic). lia.
      + exact (proj2 P2 c Ic).
    - intros x Hx. apply (proj1 P2). intros d Id. specialize (Hx d Id). pose proof (place bs Lay d Id). lia.
    - reflexivity.
    - apply (chain_ext h); [|exact Ch]. intros c Ic. apply load_ext. intros i Hi. apply (Same c _ Ic). lia. }
  destruct (sweep_ok h bs Lay free Fo M bs fuel h2 head [] head [] Bt ltac:(lia)) as [h' [head' [E [e [He Bf]]]]].
  exists (fun b => mem M (fst b)), h', head'. split; [|split; [|split; [|split]]].
  - unfold gc, gc_mark. rewrite E1, E2. unfold gc_sweep. cbn [map last] in E. rewrite E, app_nil_r. reflexivity.
  - exact (marked_reach table h bs root Lay M B Ld).
  - eapply segment_chain; [exact He|]. exact (bt_segment _ _ _ _ _ _ _ _ Bf).
  - intros b Ib. exact (bt_kept _ _ _ _ _ _ _ _ Bf b Ib).
  - exact (bt_outside _ _ _ _ _ _ _ _ Bf).
Qed.
