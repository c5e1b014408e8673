(** Proofs about the hash map. *)
From Coq Require Import ZArith List Bool Lia Permutation.
From Verif Require Import Ints LibModel LibSpec LibProofs LibProofs2 LibLists.
Import ListNotations.
Open Scope Z_scope.
Ltac Zify.zify_post_hook ::= Z.div_mod_to_equations.
Local Arguments Z.mul : simpl never.
Local Arguments Z.add : simpl never.

Section Assoc.
Context {K V : Type}.
Variable same : K -> K -> bool.
Variable P : K -> Prop.
Hypothesis same_refl : forall a, P a -> same a a = true.
Hypothesis same_sym : forall a b, P a -> P b -> same a b = same b a.
Hypothesis same_trans : forall a b c, P a -> P b -> P c -> same a b = true -> same b c = true -> same a c = true.

Notation entries := (list (K * V)) (only parsing).
Implicit Types (k : K) (v : V) (l a b : entries).
Definition keys_ok (l : entries) : Prop := Forall (fun e => P (fst e)) l.

Fixpoint distinct (l : entries) : Prop :=
  match l with
  | [] => True
  | e :: r => Forall (fun e' => same (fst e) (fst e') = false) r /\ distinct r
  end.

Lemma keys_perm l l' : Permutation l l' -> keys_ok l -> keys_ok l'.
Proof. intros H. apply Permutation_Forall. auto. Qed.

Lemma distinct_perm l l' : Permutation l l' -> keys_ok l -> distinct l -> distinct l'.
Proof.
  induction 1 as [|x l l' H IH|x y l|l l' l'' H IH H' IH']; intros Hk Hd; auto.
  - destruct Hd as [H1 H2]. inversion Hk; subst. split; auto.
    eapply Permutation_Forall; eauto.
  - destruct Hd as [H1 [H2 H3]]. inversion H1; subst. inversion Hk as [|? ? Px Hk']; subst.
    inversion Hk' as [|? ? Py Hk'']; subst.
    repeat split; auto. constructor; auto. rewrite same_sym; auto.
  - apply IH'; auto. eapply keys_perm; eauto.
Qed.

Lemma get_app (a b : entries) k :
  d_get same (a ++ b) k = match d_get same a k with Some v => Some v | None => d_get same b k end.
Proof. induction a as [|[k' v] a IH]; simpl; auto. destruct (same k' k); auto. Qed.

Definition absent (l : entries) k := Forall (fun e => same (fst e) k = false) l.

Lemma get_absent l k : d_get same l k = None <-> absent l k.
Proof.
  induction l as [|[k' v] l IH]; simpl.
  - split; auto. constructor.
  - destruct (same k' k) eqn:E.
    + split; [discriminate|]. intros H. inversion H; simpl in *; congruence.
    + rewrite IH. split; [intros; constructor; auto|]. intros H; inversion H; auto.
Qed.

Lemma put_absent l k v : absent l k -> d_put same l k v = l ++ [(k, v)].
Proof.
  induction l as [|[k' v'] l IH]; intros H; simpl; auto. inversion H; simpl in *; subst.
  destruct (same k' k); [congruence|]. rewrite IH; auto.
Qed.

Lemma put_app_r a b k v : absent a k -> d_put same (a ++ b) k v = a ++ d_put same b k v.
Proof.
  induction a as [|[k' v'] l IH]; intros H; simpl; auto. inversion H; simpl in *; subst.
  destruct (same k' k); [congruence|]. rewrite IH; auto.
Qed.

Lemma put_app_l a b k v : d_get same a k <> None -> d_put same (a ++ b) k v = d_put same a k v ++ b.
Proof.
  induction a as [|[k' v'] l IH]; intros H; simpl in *; [congruence|].
  destruct (same k' k); auto. simpl. rewrite IH; auto.
Qed.

Lemma remove_absent l k : absent l k -> d_remove same l k = l.
Proof.
  induction l as [|[k' v'] l IH]; intros H; simpl; auto. inversion H; simpl in *; subst.
  destruct (same k' k); [congruence|]. rewrite IH; auto.
Qed.

Lemma remove_app_r a b k : absent a k -> d_remove same (a ++ b) k = a ++ d_remove same b k.
Proof.
  induction a as [|[k' v'] l IH]; intros H; simpl; auto. inversion H; simpl in *; subst.
  destruct (same k' k); [congruence|]. rewrite IH; auto.
Qed.

Lemma remove_app_l a b k : absent b k -> d_remove same (a ++ b) k = d_remove same a k ++ b.
Proof.
  induction a as [|[k' v'] l IH]; intros H; simpl in *; [apply remove_absent; auto|].
  destruct (same k' k); auto. rewrite IH; auto.
Qed.

Lemma clash (a b : K) k : P a -> P b -> P k -> same a k = true -> same b k = true -> same a b = true.
Proof. intros. apply same_trans with k; auto. rewrite same_sym; auto. Qed.

Lemma get_perm l l' k : Permutation l l' -> keys_ok l -> distinct l -> P k -> d_get same l k = d_get same l' k.
Proof.
  induction 1 as [|[x v] l l' H IH|[x v] [y w] l|l l' l'' H IH H' IH']; intros Hk Hd Pk; simpl; auto.
  - inversion Hk; subst. destruct Hd. destruct (same x k); auto.
  - inversion Hk as [|? ? Py Hk']; subst. inversion Hk' as [|? ? Px Hk'']; subst. simpl in *.
    destruct Hd as [H1 _]. inversion H1; subst. simpl in *.
    destruct (same x k) eqn:E1, (same y k) eqn:E2; auto.
    exfalso. rewrite (clash y x k) in *; auto; discriminate.
  - rewrite IH, IH'; auto; [eapply keys_perm|eapply distinct_perm]; eauto.
Qed.

Lemma put_perm l l' k v : Permutation l l' -> keys_ok l -> distinct l -> P k ->
  Permutation (d_put same l k v) (d_put same l' k v).
Proof.
  induction 1 as [|[x u] l l' H IH|[x u] [y w] l|l l' l'' H IH H' IH']; intros Hk Hd Pk; simpl; auto.
  - inversion Hk; subst. destruct Hd. destruct (same x k); auto.
  - inversion Hk as [|? ? Py Hk']; subst. inversion Hk' as [|? ? Px Hk'']; subst. simpl in *.
    destruct Hd as [H1 _]. inversion H1; subst. simpl in *.
    destruct (same x k) eqn:E1, (same y k) eqn:E2; try apply perm_swap.
    exfalso. rewrite (clash y x k) in *; auto; discriminate.
  - eapply perm_trans; [apply IH|apply IH']; auto; [eapply keys_perm|eapply distinct_perm]; eauto.
Qed.

Lemma remove_perm l l' k : Permutation l l' -> keys_ok l -> distinct l -> P k ->
  Permutation (d_remove same l k) (d_remove same l' k).
Proof.
  induction 1 as [|[x u] l l' H IH|[x u] [y w] l|l l' l'' H IH H' IH']; intros Hk Hd Pk; simpl; auto.
  - inversion Hk; subst. destruct Hd. destruct (same x k); auto.
  - inversion Hk as [|? ? Py Hk']; subst. inversion Hk' as [|? ? Px Hk'']; subst. simpl in *.
    destruct Hd as [H1 _]. inversion H1; subst. simpl in *.
    destruct (same x k) eqn:E1, (same y k) eqn:E2; try apply perm_swap; auto.
    exfalso. rewrite (clash y x k) in *; auto; discriminate.
  - eapply perm_trans; [apply IH|apply IH']; auto; [eapply keys_perm|eapply distinct_perm]; eauto.
Qed.

Lemma put_in l k v e : In e (d_put same l k v) -> fst e = k \/ exists e', In e' l /\ fst e' = fst e.
Proof.
  induction l as [|[k' v'] l IH]; simpl.
  - intros [<-|[]]. auto.
  - destruct (same k' k); simpl.
    + intros [<-|H]; right; [exists (k', v')|exists e]; auto.
    + intros [<-|H]; [right; exists (k', v'); auto|]. destruct (IH H) as [?|(e' & ? & ?)]; auto.
      right. exists e'. auto.
Qed.

Lemma put_keys l k v : P k -> keys_ok l -> keys_ok (d_put same l k v).
Proof.
  intros Pk H. apply Forall_forall. intros e He. destruct (put_in _ _ _ _ He) as [->|(e' & H1 & <-)]; auto.
  revert e' H1. apply Forall_forall. auto.
Qed.

Lemma put_distinct l k v : P k -> keys_ok l -> distinct l -> distinct (d_put same l k v).
Proof.
  intros Pk. induction l as [|[k' v'] l IH]; intros Hk Hd; simpl.
  - split; constructor.
  - inversion Hk as [|? ? Pk' Hk']; subst. destruct Hd as [H1 H2]. simpl in *.
    destruct (same k' k) eqn:E; simpl; split; auto.
    apply Forall_forall. intros e He. destruct (put_in _ _ _ _ He) as [->|(e' & H3 & <-)]; auto.
    revert e' H3. apply Forall_forall. auto.
Qed.

Lemma remove_incl l k e : In e (d_remove same l k) -> In e l.
Proof. induction l as [|[k' v'] l IH]; simpl; auto. destruct (same k' k); simpl; intuition. Qed.

Lemma remove_keys l k : keys_ok l -> keys_ok (d_remove same l k).
Proof. intros H. apply Forall_forall. intros e He. apply remove_incl in He. revert e He. apply Forall_forall. auto. Qed.

Lemma remove_distinct l k : distinct l -> distinct (d_remove same l k).
Proof.
  induction l as [|[k' v'] l IH]; simpl; auto. intros [H1 H2]. destruct (same k' k); simpl; auto.
  split; auto. apply Forall_forall. intros e He. apply remove_incl in He. revert e He. apply Forall_forall. auto.
Qed.

Lemma put_length l k v : length (d_put same l k v) =
  (length l + match d_get same l k with Some _ => 0 | None => 1 end)%nat.
Proof. induction l as [|[k' v'] l IH]; simpl; auto. destruct (same k' k); simpl; lia. Qed.

Lemma remove_length l k : (length (d_remove same l k) +
  match d_get same l k with Some _ => 1 | None => 0 end)%nat = length l.
Proof. induction l as [|[k' v'] l IH]; simpl; auto. destruct (same k' k); simpl; lia. Qed.

(* ------------------------------------------------------------ the map *)

Variable hash : K -> Z.
Variable hasher : K -> res Z.
Variable matcher : K -> K -> res bool.
Hypothesis hasher_ok : forall k, P k -> hasher k = Val (hash k).
Hypothesis hash_nonneg : forall k, P k -> 0 <= hash k.
Hypothesis hash_int : forall k, P k -> is_int (hash k).
Hypothesis hash_same : forall a b : K, P a -> P b -> same a b = true -> hash a = hash b.
Hypothesis matcher_ok : forall a b : K, P a -> P b -> matcher a b = Val (same a b).

(** Every entry is in the bucket its key belongs to. *)
Definition placed (bs : list entries) : Prop :=
  forall i b e, nth_error bs i = Some b -> In e b -> hash (fst e) mod len bs = Z.of_nat i.

Record map_inv (m : hmap K V) (d : entries) : Prop := MapInv {
  mi_hasher : m_hasher m = hasher;
  mi_matcher : m_matcher m = matcher;
  mi_placed : placed (m_buckets m);
  mi_perm : Permutation (concat (m_buckets m)) d;
  mi_keys : keys_ok d;
  mi_distinct : distinct d;
  mi_size : m_size m = len d;
  mi_count : 16 <= len (m_buckets m);
  mi_threshold : m_threshold m = threshold (len (m_buckets m))
}.

Lemma index_ok m d k : map_inv m d -> P k -> is_int (len (m_buckets m)) ->
  index_for m k = Val (hash k mod len (m_buckets m)) /\
  0 <= hash k mod len (m_buckets m) < len (m_buckets m).
Proof.
  intros Hm Pk Hi. unfold index_for. rewrite (mi_hasher _ _ Hm), hasher_ok by auto. cbn [bind].
  pose proof (mi_count _ _ Hm). pose proof (hash_nonneg k Pk).
  rewrite mod_spec by (auto; lia). rewrite Z.rem_mod_nonneg by lia. split; auto.
  apply Z.mod_pos_bound. lia.
Qed.

Lemma slot_ok bs i : 0 <= i < len bs -> exists pre b post, bs = pre ++ b :: post /\ len pre = i /\
  @bucket K V bs i = Val b /\ forall b', set_bucket bs i b' = Val (pre ++ b' :: post).
Proof.
  intros H. destruct (split_at bs (Z.to_nat i)) as (pre & b & post & E & L); [unfold len in H; lia|].
  exists pre, b, post. split; auto. split; [unfold len; lia|].
  unfold bucket, set_bucket. destruct (Z.ltb_spec i 0); [lia|]. destruct (Z.leb_spec (len bs) i); [lia|]. cbn [orb].
  split.
  - f_equal. rewrite E, <- L, app_nth2, Nat.sub_diag by lia. reflexivity.
  - intros b'. f_equal. rewrite E, <- L, upd_app. reflexivity.
Qed.

(** Entries of other buckets have other keys. *)
Lemma others_absent bs pre b post k : placed bs -> bs = pre ++ b :: post -> keys_ok (concat bs) -> P k ->
  hash k mod len bs = len pre -> absent (concat pre) k /\ absent (concat post) k.
Proof.
  intros Hp E Hk Pk Hi. unfold keys_ok in Hk. rewrite Forall_forall in Hk.
  assert (X : forall i b' e, nth_error bs i = Some b' -> In e b' -> Z.of_nat i <> len pre -> same (fst e) k = false).
  { intros i b' e Hn He Hne. destruct (same (fst e) k) eqn:Es; auto. exfalso. apply Hne.
    rewrite <- Hi, <- (hash_same (fst e) k); auto.
    - symmetry. eapply Hp; eauto.
    - apply Hk. apply in_concat. exists b'. split; auto. eapply nth_error_In; eauto. }
  split; apply Forall_forall; intros e He; apply in_concat in He; destruct He as (b' & Hb & He);
    apply In_nth_error in Hb; destruct Hb as [n Hn].
  - apply (X n b'); auto.
    + rewrite E, nth_error_app1; auto. apply nth_error_Some. congruence.
    + assert (n < length pre)%nat by (apply nth_error_Some; congruence). unfold len. lia.
  - apply (X (length pre + S n)%nat b'); auto.
    + rewrite E, nth_error_app2 by lia. replace (length pre + S n - length pre)%nat with (S n) by lia. auto.
    + unfold len. lia.
Qed.

Lemma bucket_find_spec k : P k -> forall b, keys_ok b ->
  (bucket_find matcher b k = Val None /\ absent b k) \/
  (exists pre e post, bucket_find matcher b k = Val (Some (pre, e, post)) /\ b = pre ++ e :: post /\
     absent pre k /\ same (fst e) k = true).
Proof.
  intros Pk. induction b as [|e b IH]; intros Hk.
  - left. split; auto. constructor.
  - inversion Hk; subst. cbn [bucket_find]. rewrite matcher_ok by auto. cbn [bind].
    destruct (same (fst e) k) eqn:E.
    + right. exists [], e, b. repeat split; auto. constructor.
    + destruct IH as [[-> Ha]|(pre & e' & post & -> & -> & Ha & Es)]; auto; cbn [bind option_map].
      * left. split; auto. constructor; auto.
      * right. exists (e :: pre), e', post. repeat split; auto. constructor; auto.
Qed.

Lemma get_found pre e post k : absent pre k -> same (fst e) k = true ->
  d_get same (pre ++ e :: post) k = Some (snd e).
Proof.
  intros Ha Es. rewrite get_app. apply get_absent in Ha. rewrite Ha. destruct e. simpl in *. rewrite Es. auto.
Qed.

Lemma put_found pre e post k v : absent pre k -> same (fst e) k = true ->
  d_put same (pre ++ e :: post) k v = pre ++ (fst e, v) :: post.
Proof. intros Ha Es. rewrite put_app_r by auto. destruct e. simpl in *. rewrite Es. auto. Qed.

Lemma concat_mid (pre : list entries) b post : concat (pre ++ b :: post) = concat pre ++ b ++ concat post.
Proof. rewrite concat_app. reflexivity. Qed.

(** What search finds. *)
Lemma search_spec m d k : map_inv m d -> P k -> is_int (len (m_buckets m)) ->
  exists pre b post, m_buckets m = pre ++ b :: post /\
    hash k mod len (m_buckets m) = len pre /\ 0 <= len pre < len (m_buckets m) /\
    absent (concat pre) k /\ absent (concat post) k /\ keys_ok b /\
    ((search m k = Val (inr (len pre)) /\ absent b k) \/
     (exists p e q, search m k = Val (inl (len pre, (p, e, q))) /\ b = p ++ e :: q /\
        absent p k /\ same (fst e) k = true)).
Proof.
  intros Hm Pk Hi. destruct (index_ok m d k) as [Ei Hr]; auto.
  destruct (slot_ok (m_buckets m) (hash k mod len (m_buckets m))) as (pre & b & post & E & L & Eb & _); auto.
  assert (Hk : keys_ok (concat (m_buckets m))).
  { eapply keys_perm; [apply Permutation_sym; apply (mi_perm _ _ Hm)|apply (mi_keys _ _ Hm)]. }
  destruct (others_absent (m_buckets m) pre b post k) as [H1 H2]; auto; [apply (mi_placed _ _ Hm)|].
  assert (Hkb : keys_ok b).
  { rewrite E, concat_mid in Hk. apply Forall_app in Hk. destruct Hk as [_ Hk]. apply Forall_app in Hk. apply Hk. }
  exists pre, b, post. split; auto. split; auto. split; [lia|]. split; auto. split; auto. split; auto.
  unfold search. rewrite Ei. cbn [bind]. rewrite Eb. cbn [bind]. rewrite (mi_matcher _ _ Hm), L.
  destruct (bucket_find_spec k Pk b Hkb) as [[-> Ha]|(p & e & q & -> & Hb & Ha & Es)]; cbn [bind].
  - left. auto.
  - right. exists p, e, q. auto.
Qed.

Lemma d_get_middle pre b post k : absent (concat pre) k -> absent (concat post) k ->
  d_get same (concat (pre ++ b :: post)) k = d_get same b k.
Proof.
  intros H1 H2. rewrite concat_mid, get_app. apply get_absent in H1, H2. rewrite H1, get_app, H2.
  destruct (d_get same b k); auto.
Qed.

Lemma inv_get m d k : map_inv m d -> P k -> d_get same (concat (m_buckets m)) k = d_get same d k.
Proof.
  intros Hm Pk. assert (Hp := Permutation_sym (mi_perm _ _ Hm)). symmetry. apply get_perm; auto; apply Hm.
Qed.

Lemma get_spec m d k : map_inv m d -> P k -> is_int (len (m_buckets m)) -> get m k = Val (d_get same d k).
Proof.
  intros Hm Pk Hi. rewrite <- (inv_get m) by auto.
  destruct (search_spec m d k Hm Pk Hi) as (pre & b & post & E & _ & _ & H1 & H2 & _ & Hs).
  unfold get. rewrite E, d_get_middle by auto.
  destruct Hs as [[-> Ha]|(p & e & q & -> & -> & Ha & Es)]; cbn [bind].
  - apply get_absent in Ha. rewrite Ha. reflexivity.
  - rewrite get_found by auto. reflexivity.
Qed.

(** Replacing a bucket by one whose entries belong there. *)
Lemma placed_set pre b post b' : placed (pre ++ b :: post) ->
  (forall e, In e b' -> hash (fst e) mod len (pre ++ b :: post) = len pre) -> placed (pre ++ b' :: post).
Proof.
  intros Hp Hb i c e Hn He.
  assert (El : len (pre ++ b' :: post) = len (pre ++ b :: post)) by (rewrite !len_app, !len_cons; auto).
  rewrite El. destruct (Nat.eq_dec i (length pre)) as [->|N].
  - rewrite nth_error_app2, Nat.sub_diag in Hn by lia. inversion Hn; subst. apply Hb; auto.
  - apply (Hp i c e); auto. destruct (Nat.lt_ge_cases i (length pre)).
    + rewrite nth_error_app1 in * by auto. auto.
    + rewrite nth_error_app2 in * by auto. destruct (i - length pre)%nat eqn:E; [lia|]. auto.
Qed.

Lemma placed_mid pre b post e : placed (pre ++ b :: post) -> In e b -> hash (fst e) mod len (pre ++ b :: post) = len pre.
Proof.
  intros Hp He. apply (Hp (length pre) b e); auto. rewrite nth_error_app2, Nat.sub_diag by lia. auto.
Qed.

Lemma placed_empty n : placed (repeat [] n).
Proof.
  intros i b e Hn He. apply nth_error_In in Hn. apply repeat_spec in Hn. subst. contradiction.
Qed.

Lemma concat_empty n : concat (repeat (@nil (K * V)) n) = [].
Proof. induction n; simpl; auto. Qed.

Lemma rehash_entry_spec bs e : P (fst e) -> 0 < len bs -> is_int (len bs) -> placed bs ->
  exists bs', rehash_entry hasher bs e = Val bs' /\ placed bs' /\ len bs' = len bs /\
    Permutation (concat bs') (e :: concat bs).
Proof.
  intros Pe Hl Hi Hp. unfold rehash_entry. rewrite hasher_ok by auto. cbn [bind].
  pose proof (hash_nonneg _ Pe). rewrite mod_spec by (auto; lia). rewrite Z.rem_mod_nonneg by lia. cbn [bind].
  pose proof (Z.mod_pos_bound (hash (fst e)) (len bs) Hl) as Hr.
  destruct (slot_ok bs (hash (fst e) mod len bs)) as (pre & b & post & E & L & Eb & Es); auto.
  rewrite Eb. cbn [bind]. rewrite Es. eexists. split; [reflexivity|]. subst bs. split; [|split].
  - apply (placed_set pre b); auto. intros e' [<-|He]; [lia|]. apply placed_mid; auto.
  - rewrite !len_app, !len_cons. auto.
  - rewrite !concat_mid. unfold list_append. cbn [app].
    symmetry. apply Permutation_middle.
Qed.

Lemma rehash_bucket_spec b : forall bs, keys_ok b -> 0 < len bs -> is_int (len bs) -> placed bs ->
  exists bs', rehash_bucket hasher b bs = Val bs' /\ placed bs' /\ len bs' = len bs /\
    Permutation (concat bs') (b ++ concat bs).
Proof.
  induction b as [|e b IH]; intros bs Hk Hl Hi Hp.
  - exists bs. repeat split; auto.
  - inversion Hk; subst. cbn [rehash_bucket].
    destruct (rehash_entry_spec bs e) as (bs1 & -> & Hp1 & L1 & Pm1); auto. cbn [bind].
    destruct (IH bs1) as (bs2 & -> & Hp2 & L2 & Pm2); auto; try (rewrite L1; auto).
    exists bs2. split; auto. split; auto. split; [lia|].
    rewrite Pm2, Pm1. symmetry. apply Permutation_middle.
Qed.

Lemma rehash_spec old : forall bs, keys_ok (concat old) -> 0 < len bs -> is_int (len bs) -> placed bs ->
  exists bs', rehash hasher old bs = Val bs' /\ placed bs' /\ len bs' = len bs /\
    Permutation (concat bs') (concat old ++ concat bs).
Proof.
  induction old as [|b old IH]; intros bs Hk Hl Hi Hp.
  - exists bs. repeat split; auto.
  - cbn [concat] in Hk. apply Forall_app in Hk. destruct Hk as [Hk1 Hk2]. cbn [rehash].
    destruct (rehash_bucket_spec b bs) as (bs1 & -> & Hp1 & L1 & Pm1); auto. cbn [bind].
    destruct (IH bs1) as (bs2 & -> & Hp2 & L2 & Pm2); auto; try (rewrite L1; auto).
    exists bs2. split; auto. split; auto. split; [lia|].
    rewrite Pm2, Pm1. cbn [concat]. rewrite !app_assoc. apply Permutation_app_tail. apply Permutation_app_comm.
Qed.

(** Resizing changes nothing observable. *)
Lemma resize_spec m d : map_inv m d -> is_int (2 * len (m_buckets m)) ->
  exists m', resize m = Val m' /\ map_inv m' d /\ len (m_buckets m') = 2 * len (m_buckets m).
Proof.
  intros Hm Hi. unfold resize. rewrite (mi_hasher _ _ Hm).
  pose proof (mi_count _ _ Hm) as Hc.
  set (n := 2 * len (m_buckets m)) in *.
  assert (Ln : len (@create_buckets K V n) = n) by (unfold create_buckets; rewrite len_repeat; lia).
  destruct (rehash_spec (m_buckets m) (create_buckets n)) as (bs & -> & Hp & L & Pm).
  - eapply keys_perm; [apply Permutation_sym; apply (mi_perm _ _ Hm)|apply (mi_keys _ _ Hm)].
  - lia.
  - rewrite Ln. auto.
  - apply placed_empty.
  - cbn [bind]. eexists. split; [reflexivity|]. rewrite Ln in L. split; [|auto].
    unfold create_buckets in Pm. rewrite concat_empty, app_nil_r in Pm.
    constructor; cbn [m_hasher m_matcher m_buckets m_size m_threshold]; try apply Hm; auto.
    + rewrite Pm. apply Hm.
    + lia.
Qed.

Lemma keys_concat m d : map_inv m d -> keys_ok (concat (m_buckets m)).
Proof. intros Hm. eapply keys_perm; [apply Permutation_sym; apply (mi_perm _ _ Hm)|apply (mi_keys _ _ Hm)]. Qed.

Lemma distinct_concat m d : map_inv m d -> distinct (concat (m_buckets m)).
Proof.
  intros Hm. eapply distinct_perm; [apply Permutation_sym; apply (mi_perm _ _ Hm)|apply (mi_keys _ _ Hm)|apply (mi_distinct _ _ Hm)].
Qed.

Lemma threshold_val n : 0 <= n -> threshold n = n - n / 4.
Proof. intros H. unfold threshold, ishr. change (2 mod 64) with 2. rewrite Z.shiftr_div_pow2 by lia. reflexivity. Qed.

Lemma put_spec m d k v : map_inv m d -> P k -> is_int (2 * len (m_buckets m)) ->
  exists m', put m k v = Val (d_get same d k, m') /\ map_inv m' (d_put same d k v) /\
    (len (m_buckets m') = len (m_buckets m) \/
     len (m_buckets m') = 2 * len (m_buckets m) /\ 2 * len (m_buckets m) <= 4 * (len d + 1)).
Proof.
  intros Hm Pk Hi. pose proof (mi_count _ _ Hm) as Hc.
  assert (Hi1 : is_int (len (m_buckets m))) by int.
  rewrite <- (inv_get m) by auto.
  assert (Hkd := put_keys d k v Pk (mi_keys _ _ Hm)).
  assert (Hdd := put_distinct d k v Pk (mi_keys _ _ Hm) (mi_distinct _ _ Hm)).
  assert (Hpp : Permutation (d_put same (concat (m_buckets m)) k v) (d_put same d k v)).
  { apply put_perm; auto; [apply Hm|eapply keys_concat|eapply distinct_concat]; eauto. }
  assert (Hlen : len (d_put same d k v) = len d + match d_get same (concat (m_buckets m)) k with Some _ => 0 | None => 1 end).
  { rewrite (inv_get m d) by auto. unfold len. rewrite put_length. destruct (d_get same d k); lia. }
  destruct (search_spec m d k Hm Pk Hi1) as (pre & b & post & E & Hh & Hr & H1 & H2 & Hkb & Hs).
  destruct (slot_ok (m_buckets m) (len pre)) as (pre' & b' & post' & E' & L' & Eb & Eset); auto.
  assert (X : pre' = pre /\ b' = b /\ post' = post).
  { rewrite E in E'. assert (Ll : length pre' = length pre) by (unfold len in L'; lia). clear - E' Ll.
    revert pre' Ll E'. induction pre as [|x pre IH]; intros [|y pre'] Ll E'; try discriminate.
    - inversion E'; auto.
    - inversion E'; subst. destruct (IH pre') as (-> & -> & ->); auto. }
  destruct X as (-> & -> & ->). clear E' L'.
  pose proof (mi_placed _ _ Hm) as Hpl.
  unfold put. rewrite E in Hpp, Hlen |- *. rewrite d_get_middle in * by auto. rewrite <- E.
  destruct Hs as [[-> Ha]|(p & e & q & -> & Hb & Ha & Es)]; cbn [bind].
  - rewrite Eb. cbn [bind]. rewrite Eset. cbn [bind]. unfold list_append.
    apply get_absent in Ha. rewrite Ha in *. apply get_absent in Ha.
    set (m1 := HMap (pre ++ ((k, v) :: b) :: post) (m_size m + 1) (m_threshold m) (m_hasher m) (m_matcher m)).
    assert (Hm1 : map_inv m1 (d_put same d k v)).
    { constructor; cbn [m_hasher m_matcher m_buckets m_size m_threshold m1]; try apply Hm; auto.
      - rewrite E in *. apply (placed_set pre b); auto. intros e' [<-|He]; [auto|]. apply placed_mid; auto.
      - rewrite concat_mid in Hpp. rewrite put_absent in Hpp.
        + rewrite <- Hpp, concat_mid. cbn [app]. rewrite <- Permutation_middle. apply Permutation_cons_append.
        + apply Forall_app; split; auto. apply Forall_app; auto.
      - rewrite (mi_size _ _ Hm). lia.
      - rewrite E in *. rewrite !len_app, !len_cons in *. auto.
      - rewrite (mi_threshold _ _ Hm), E. f_equal. rewrite !len_app, !len_cons. auto. }
    assert (Lm1 : len (m_buckets m1) = len (m_buckets m)) by (rewrite E; cbn [m1 m_buckets]; rewrite !len_app, !len_cons; auto).
    destruct (m_size m1 >? m_threshold m1) eqn:Et.
    + destruct (resize_spec m1 _ Hm1) as (m2 & -> & Hm2 & L2); [rewrite Lm1; auto|]. cbn [bind].
      exists m2. split; auto. split; auto. right. rewrite L2, Lm1. split; auto.
      apply Z.gtb_lt in Et. cbn [m1 m_size m_threshold] in Et. rewrite (mi_threshold _ _ Hm), (mi_size _ _ Hm) in Et.
      rewrite threshold_val in Et by lia. lia.
    + cbn [bind]. exists m1. split; auto.
  - rewrite Eset. cbn [bind]. rewrite Hb, get_found in * by auto. rewrite <- Hb in E.
    eexists. split; [reflexivity|]. split; [|left; cbn [m_buckets]; rewrite E, !len_app, !len_cons; auto].
    constructor; cbn [m_hasher m_matcher m_buckets m_size m_threshold]; try apply Hm; auto.
    + rewrite E in *. apply (placed_set pre b); auto. intros e' He. subst b.
      apply in_app_or in He. destruct He as [He|[<-|He]].
      * apply placed_mid; auto. apply in_or_app; auto.
      * apply (placed_mid pre _ post e); auto. apply in_or_app; right; left; auto.
      * apply placed_mid; auto. apply in_or_app; right; right; auto.
    + rewrite concat_mid in Hpp |- *. rewrite put_app_r in Hpp by auto.
      rewrite put_app_l in Hpp by (rewrite get_found by auto; discriminate).
      rewrite put_found in Hpp by auto. auto.
    + rewrite (mi_size _ _ Hm). lia.
    + rewrite E in *. rewrite !len_app, !len_cons in *. auto.
    + rewrite (mi_threshold _ _ Hm), E. f_equal. rewrite !len_app, !len_cons. auto.
Qed.

Lemma bucket_remove_found k : forall b, keys_ok b -> P k -> forall new e,
  bucket_remove_loop matcher k b new (Some e) = Val (rev new ++ b, Some e).
Proof.
  induction b as [|x b IH]; intros Hk Pk new e; cbn [bucket_remove_loop].
  - rewrite reverse_spec, app_nil_r. reflexivity.
  - inversion Hk; subst. rewrite matcher_ok by auto. cbn [bind is_none]. rewrite andb_false_r.
    rewrite IH by auto. cbn [rev]. rewrite <- app_assoc. reflexivity.
Qed.

Lemma bucket_remove_spec k : P k -> forall b, keys_ok b -> forall new,
  exists o, bucket_remove_loop matcher k b new None = Val (rev new ++ d_remove same b k, o) /\
    option_map snd o = d_get same b k.
Proof.
  intros Pk. induction b as [|[k' v'] b IH]; intros Hk new; cbn [bucket_remove_loop].
  - exists None. rewrite reverse_spec, app_nil_r. auto.
  - inversion Hk; subst. rewrite matcher_ok by auto. cbn [bind is_none fst d_remove d_get]. rewrite andb_true_r.
    destruct (same k' k).
    + exists (Some (k', v')). rewrite bucket_remove_found by auto. auto.
    + destruct (IH ltac:(auto) ((k', v') :: new)) as (o & -> & Eo). exists o. cbn [rev]. rewrite <- app_assoc. auto.
Qed.

Lemma remove_op_spec m d k : map_inv m d -> P k -> is_int (len (m_buckets m)) ->
  exists m', remove m k = Val (d_get same d k, m') /\ map_inv m' (d_remove same d k) /\
    len (m_buckets m') = len (m_buckets m).
Proof.
  intros Hm Pk Hi. rewrite <- (inv_get m) by auto.
  assert (Hpp : Permutation (d_remove same (concat (m_buckets m)) k) (d_remove same d k)).
  { apply remove_perm; auto; [apply Hm|eapply keys_concat|eapply distinct_concat]; eauto. }
  pose proof (remove_length d k) as Hlen. rewrite <- (inv_get m d) in Hlen by auto.
  destruct (index_ok m d k) as [Ei Hr]; auto.
  destruct (slot_ok (m_buckets m) (hash k mod len (m_buckets m))) as (pre & b & post & E & L & Eb & Es); auto.
  pose proof (keys_concat _ _ Hm) as Hk. pose proof (mi_placed _ _ Hm) as Hpl.
  destruct (others_absent (m_buckets m) pre b post k) as [H1 H2]; auto.
  assert (Hkb : keys_ok b).
  { rewrite E, concat_mid in Hk. apply Forall_app in Hk. destruct Hk as [_ Hk]. apply Forall_app in Hk. apply Hk. }
  unfold remove. rewrite Ei. cbn [bind]. rewrite Eb. cbn [bind]. rewrite (mi_matcher _ _ Hm).
  destruct (bucket_remove_spec k Pk b Hkb []) as (o & -> & Eo). cbn [bind rev app]. rewrite Es. cbn [bind].
  rewrite E in Hpp, Hlen |- *. rewrite d_get_middle in * by auto. rewrite <- E.
  eexists. split; [rewrite Eo; reflexivity|]. split; [|cbn [m_buckets]; rewrite E, !len_app, !len_cons; auto].
  constructor; cbn [m_hasher m_matcher m_buckets m_size m_threshold]; try apply Hm; auto.
  - rewrite E in *. apply (placed_set pre b); auto. intros e He. apply placed_mid; auto.
    eapply remove_incl; eauto.
  - rewrite concat_mid in Hpp |- *. rewrite remove_app_r, remove_app_l in Hpp by auto. auto.
  - apply remove_keys, Hm.
  - apply remove_distinct, Hm.
  - rewrite (mi_size _ _ Hm). rewrite <- Eo in Hlen. unfold len. destruct o; simpl in *; lia.
  - pose proof (mi_count _ _ Hm) as Hc. rewrite E in *. rewrite !len_app, !len_cons in *. auto.
  - rewrite (mi_threshold _ _ Hm), E. f_equal. rewrite !len_app, !len_cons. auto.
Qed.

Lemma new_map_inv : map_inv (new_hash_map hasher matcher) [].
Proof.
  constructor; [reflexivity|reflexivity|apply placed_empty| |constructor|exact I|reflexivity| |reflexivity];
    unfold new_hash_map, create_buckets; cbn [m_buckets].
  - rewrite concat_empty. constructor.
  - rewrite len_repeat. lia.
Qed.

Lemma op_spec m d o : map_inv m d -> op_key P o -> is_int (2 * len (m_buckets m)) ->
  exists m', m_op m o = Val (fst (d_op same d o), m') /\ map_inv m' (snd (d_op same d o)) /\
    len (snd (d_op same d o)) <= len d + 1 /\
    (len (m_buckets m') = len (m_buckets m) \/ len (m_buckets m') <= 4 * (len d + 1)).
Proof.
  intros Hm Ho Hi. pose proof (mi_count _ _ Hm) as Hc.
  assert (Hi1 : is_int (len (m_buckets m))) by int.
  destruct o as [k v|k|k|k| |k v]; cbn [m_op d_op fst snd op_key] in *.
  - destruct (put_spec m d k v) as (m' & -> & Hm' & L); auto. exists m'. cbn [bind fst snd]. split; auto. split; auto.
    split; [unfold len; rewrite put_length; destruct (d_get same d k); lia|].
    destruct L as [L|[L1 L2]]; [auto|right; lia].
  - rewrite (get_spec m d k) by auto. exists m. cbn [bind]. repeat split; auto; try apply Hm; lia.
  - unfold contains. rewrite (get_spec m d k) by auto. exists m. cbn [bind]. split; [|split; auto; split; [lia|auto]].
    unfold is_some, is_none. destruct (d_get same d k); reflexivity.
  - destruct (remove_op_spec m d k) as (m' & -> & Hm' & L); auto. exists m'. cbn [bind fst snd]. split; auto. split; auto.
    split; auto. pose proof (remove_length d k). unfold len. lia.
  - exists m. rewrite (mi_size _ _ Hm). split; auto. split; auto. split; auto. lia.
  - unfold map_or_else. rewrite (get_spec m d k) by auto. exists m. cbn [bind]. split; [|split; auto; split; [lia|auto]].
    unfold opt_or_else. destruct (d_get same d k); reflexivity.
Qed.

Lemma run_spec : forall os m d N, map_inv m d -> Forall (op_key P) os ->
  len d <= N -> len (m_buckets m) <= 16 + 4 * N -> 2 * (16 + 4 * (N + len os)) <= int_max ->
  exists m', m_run m os = Val (fst (d_run same d os), m') /\ map_inv m' (snd (d_run same d os)) /\
    is_int (len (m_buckets m')).
Proof.
  induction os as [|o os IH]; intros m d N Hm Hos Hd Hn Hb.
  - exists m. split; auto. split; auto. pose proof (mi_count _ _ Hm). rewrite len_nil in Hb. int.
  - inversion Hos as [|? ? Ho Hos']; subst. rewrite len_cons in Hb.
    pose proof (len_nonneg os). pose proof (len_nonneg d). pose proof (len_nonneg (m_buckets m)).
    destruct (op_spec m d o) as (m1 & E1 & Hm1 & L1 & L2); auto; [int|].
    cbn [m_run d_run]. rewrite E1. cbn [bind snd fst].
    destruct (d_op same d o) as [a d1] eqn:Ed. cbn [fst snd] in *.
    destruct (IH m1 d1 (N + 1)) as (m2 & E2 & Hm2 & Hi2); auto; try lia.
    rewrite E2. cbn [bind fst snd]. destruct (d_run same d1 os) as [as_ d2]. cbn [fst snd] in *.
    exists m2. auto.
Qed.

Lemma same_class (a b : K) k : P a -> P b -> P k -> same a b = true -> same a k = same b k.
Proof.
  intros Pa Pb Pk E. destruct (same b k) eqn:E1.
  - apply same_trans with b; auto.
  - destruct (same a k) eqn:E2; auto. rewrite <- E1. symmetry. apply same_trans with a; auto.
    rewrite same_sym; auto.
Qed.

Lemma get_put l k v (k' : K) : keys_ok l -> P k -> P k' ->
  d_get same (d_put same l k v) k' = if same k k' then Some v else d_get same l k'.
Proof.
  intros Hk Pk Pk'. induction l as [|[x u] l IH]; simpl; auto.
  inversion Hk as [|? ? Px Hk']; subst. simpl in Px. destruct (same x k) eqn:E; simpl.
  - rewrite (same_class x k k') by auto. destruct (same k k'); auto.
  - rewrite IH by auto. destruct (same x k') eqn:E1; auto. destruct (same k k') eqn:E2; auto.
    rewrite (clash x k k') in E by auto. discriminate.
Qed.

Lemma get_remove l k (k' : K) : keys_ok l -> distinct l -> P k -> P k' ->
  d_get same (d_remove same l k) k' = if same k k' then None else d_get same l k'.
Proof.
  intros Hk Hd Pk Pk'. induction l as [|[x u] l IH]; simpl.
  - destruct (same k k'); auto.
  - inversion Hk as [|? ? Px Hk']; subst. simpl in Px. destruct Hd as [Hd1 Hd2]. destruct (same x k) eqn:E; simpl.
    + destruct (same k k') eqn:E2.
      * apply get_absent. apply Forall_forall. intros e He. unfold keys_ok in Hk'.
        rewrite Forall_forall in Hd1, Hk'. specialize (Hd1 e He). simpl in Hd1.
        destruct (same (fst e) k') eqn:E3; auto. rewrite <- Hd1. symmetry.
        apply clash with k'; auto. apply same_trans with k; auto.
      * rewrite (same_class x k k'), E2 by auto. reflexivity.
    + rewrite IH by auto. destruct (same k k') eqn:E2; auto. destruct (same x k') eqn:E1; auto.
      rewrite (clash x k k') in E by auto. discriminate.
Qed.

Lemma run_inv os : forall d, keys_ok d -> distinct d -> Forall (op_key P) os ->
  keys_ok (snd (d_run same d os)) /\ distinct (snd (d_run same d os)).
Proof.
  induction os as [|o os IH]; intros d Hk Hd Hos; [auto|]. inversion Hos as [|? ? Ho Hos']; subst. cbn [d_run].
  assert (X : keys_ok (snd (d_op same d o)) /\ distinct (snd (d_op same d o))).
  { destruct o; cbn [d_op snd op_key] in *; auto.
    - split; [apply put_keys|apply put_distinct]; auto.
    - split; [apply remove_keys|apply remove_distinct]; auto. }
  destruct (d_op same d o) as [a d1]. cbn [snd] in X. destruct X as [X1 X2]. specialize (IH d1 X1 X2 Hos').
  destruct (d_run same d1 os). exact IH.
Qed.

Lemma run_app (os1 : list (op K V)) : forall d os2, snd (d_run same d (os1 ++ os2)) = snd (d_run same (snd (d_run same d os1)) os2).
Proof.
  induction os1 as [|o os IH]; intros d os2; [reflexivity|]. cbn [d_run app].
  destruct (d_op same d o) as [a d1]. specialize (IH d1 os2).
  destruct (d_run same d1 (os ++ os2)). destruct (d_run same d1 os). exact IH.
Qed.

Lemma last_value_spec (os : list (op K V)) : Forall (op_key P) os -> forall k, P k ->
  d_get same (snd (d_run same [] os)) k = last_value same (rev os) k.
Proof.
  induction os as [|o os IH] using rev_ind; intros Hos k Pk; [reflexivity|].
  apply Forall_app in Hos. destruct Hos as [Hos Ho]. inversion Ho; subst.
  rewrite run_app, rev_app_distr. cbn [rev app].
  destruct (run_inv os [] ltac:(constructor) I Hos) as [Hk Hd].
  specialize (IH Hos k Pk).
  set (d := snd (d_run same [] os)) in *. clearbody d.
  destruct o; cbn [d_run d_op snd last_value op_key] in *; rewrite <- ?IH; auto.
  - rewrite get_put by auto. reflexivity.
  - rewrite get_remove by auto. reflexivity.
Qed.

Lemma foreach_visits {S} (f : K -> V -> S -> S) m s :
  map_foreach m f s = fold_left (fun s e => f (fst e) (snd e) s) (concat (m_buckets m)) s.
Proof.
  unfold map_foreach. revert s. induction (m_buckets m) as [|b bs IH]; intros s; simpl; auto.
  rewrite fold_left_app, <- IH, foreach_spec. reflexivity.
Qed.
End Assoc.
