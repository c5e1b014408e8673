(** Declarations (for C53). *)
From Coq Require Import String Ascii List Bool PeanoNat Lia Permutation.
From Verif Require Import TypeModel TypeSpec TypeGraph CheckModel CheckSpec DeclModel DeclSpec.
Import ListNotations.
Local Open Scope string_scope.
Local Open Scope nat_scope.
Local Open Scope list_scope.

(* --------------------------------------------------------------------------- tables *)

Lemma assoc_map : forall {A B} (g : A -> B) x (l : list (string * A)),
  assoc x (map (fun e => (fst e, g (snd e))) l) = option_map g (assoc x l).
Proof. intros A B g x; induction l as [|[y a] l IH]; cbn; auto. destruct (String.eqb x y); auto. Qed.
Lemma assoc_in : forall {A} x (l : list (string * A)) a, assoc x l = Some a -> In (x, a) l.
Proof.
  intros A x; induction l as [|[y b] l IH]; intros a E; cbn in *; [discriminate|].
  destruct (String.eqb_spec x y) as [->|]; [injection E as ->; auto|auto].
Qed.
Lemma in_assoc : forall {A} x (l : list (string * A)) a, NoDup (map fst l) -> In (x, a) l -> assoc x l = Some a.
Proof.
  intros A x; induction l as [|[y b] l IH]; intros a N I; cbn in *; [contradiction|]. inversion N; subst.
  destruct I as [I|I]; [injection I as -> ->; rewrite String.eqb_refl; auto|].
  destruct (String.eqb_spec x y) as [->|]; [|auto]. exfalso. apply H1. apply in_map_iff. exists (y, a); auto.
Qed.
Lemma assoc_none : forall {A} x (l : list (string * A)), assoc x l = None <-> ~ In x (map fst l).
Proof.
  intros A x; induction l as [|[y b] l IH]; cbn; [tauto|]. destruct (String.eqb_spec x y) as [->|N]; [|rewrite IH; intuition congruence].
  split; [discriminate|intros H; exfalso; auto].
Qed.
Lemma assoc_app : forall {A} x (l m : list (string * A)), assoc x (l ++ m) = match assoc x l with Some a => Some a | None => assoc x m end.
Proof. intros A x; induction l as [|[y b] l IH]; intros m; cbn; auto. destruct (String.eqb x y); auto. Qed.

Lemma own_params_ok : forall tps next tbl t n, own_params next tbl tps = ([], t, n) ->
  exists new, t = tbl ++ new /\ map fst new = tps /\ map snd new = seq next (List.length tps) /\ n = next + List.length tps /\
    (NoDup (map fst tbl) -> NoDup (map fst t)).
Proof.
  induction tps as [|x tps IH]; intros next tbl t n E; cbn in E.
  - injection E as <- <-. exists []; cbn; rewrite app_nil_r; repeat split; auto; lia.
  - destruct (assoc x tbl) eqn:Q; [destruct (own_params next tbl tps) as [[? ?] ?]; discriminate|].
    destruct (IH _ _ _ _ E) as (new & -> & A & B & -> & C). exists ((x, next) :: new). cbn. rewrite <- app_assoc in *; cbn in *.
    repeat split; [congruence|congruence|lia|]. intros N. apply C. rewrite map_app; cbn. apply assoc_none in Q.
    clear - N Q. apply NoDup_rev in N. rewrite <- (rev_involutive (map fst tbl ++ [x])). apply NoDup_rev. rewrite rev_app_distr; cbn.
    constructor; auto. rewrite <- in_rev; auto.
Qed.

Lemma numbered_own : forall tps next t n, own_params next [] tps = ([], t, n) -> numbered tps t /\ NoDup tps /\ next <= n.
Proof.
  intros tps next t n E. destruct (own_params_ok _ _ _ _ _ E) as (new & -> & A & B & -> & C). cbn in *. repeat split; auto.
  - rewrite B. apply seq_NoDup.
  - rewrite <- A. apply C. constructor.
  - lia.
Qed.

(* ---------------------------------------------------------------------- the first pass *)

Definition type_entry (d : decl * list (string * nat)) : string * rsym :=
  (decl_name (fst d), Rsym (Some (true, decl_type (fst d) (snd d))) []).

Lemma pass1_ok : forall ds next root l n root', pass1 next root ds = ([], l, n, root') ->
  map fst l = ds /\ Forall (fun d => numbered (decl_params (fst d)) (snd d) /\ NoDup (decl_params (fst d))) l /\
  root' = rev (map type_entry l) ++ root /\ (NoDup (map fst root) -> NoDup (map fst root')).
Proof.
  induction ds as [|d ds IH]; intros next root l n root' E; cbn in E.
  - injection E as <- <- <-. cbn; auto.
  - destruct (own_params next [] (decl_params d)) as [[e1 tbl] next1] eqn:O.
    destruct (define_type root (decl_name d) true (decl_type d tbl)) as [root1|] eqn:Q.
    2:{ destruct (pass1 next1 root ds) as [[[? ?] ?] ?]. injection E as E _ _ _. destruct e1; discriminate. }
    destruct (pass1 next1 root1 ds) as [[[e3 l3] n3] r3] eqn:P. injection E as E <- <- <-. apply app_eq_nil in E as [-> E]. cbn in E; subst e3.
    destruct (IH _ _ _ _ _ P) as (A & B & C & N). destruct (numbered_own _ _ _ _ O) as (X & Y & _).
    unfold define_type in Q. destruct (assoc (decl_name d) root) eqn:S; [discriminate|]. injection Q as <-.
    repeat split; cbn; [congruence|constructor; auto| |].
    + rewrite C. cbn. rewrite <- app_assoc. reflexivity.
    + intros K. apply N. cbn. constructor; auto. apply assoc_none; auto.
Qed.

(* --------------------------------------------------------------------- the second pass *)

Definition types_of (root : rtab) (x : string) : option (bool * ty) :=
  match assoc x root with Some r => r_type r | None => None end.
Lemma type_env_types : forall scope r1 r2, (forall x, types_of r1 x = types_of r2 x) -> forall x, type_env scope r1 x = type_env scope r2 x.
Proof.
  intros scope r1 r2 H x; unfold type_env. destruct (assoc x scope); auto. specialize (H x); unfold types_of in H.
  destruct (assoc x r1) as [[? ?]|], (assoc x r2) as [[? ?]|]; cbn in H; subst; auto.
Qed.

Lemma add_fun_assoc : forall x f root y, assoc y (add_fun root x f) =
  if String.eqb x y then match assoc y root with Some r => Some (Rsym (r_type r) (r_funs r ++ [f])) | None => None end else assoc y root.
Proof.
  intros x f; induction root as [|[z r] root IH]; intros y; cbn; [destruct (String.eqb x y); auto|].
  destruct (String.eqb_spec x z) as [->|N]; cbn.
  - destruct (String.eqb_spec y z) as [->|M]; [rewrite String.eqb_refl; auto|].
    destruct (String.eqb_spec z y) as [->|_]; [congruence|]. auto.
  - rewrite IH. destruct (String.eqb_spec y z) as [->|M]; auto. destruct (String.eqb_spec x z); congruence.
Qed.
(** A new function: types stay, the function is found under its name, the others too. *)
Lemma define_fun_ok : forall root x f ov root', define_fun root x f ov = Some root' ->
  (forall y, types_of root' y = types_of root y) /\
  (exists r, assoc x root' = Some r /\ In f (r_funs r)) /\
  (forall y r, assoc y root = Some r -> exists r', assoc y root' = Some r' /\ incl (r_funs r) (r_funs r')) /\
  (forall y r g, assoc y root' = Some r -> In g (r_funs r) -> g = f \/ exists r0, assoc y root = Some r0 /\ In g (r_funs r0)) /\
  (ov = false -> assoc x root = None).
Proof.
  intros root x f ov root' E; unfold define_fun in E. destruct (assoc x root) as [r0|] eqn:Q.
  - destruct ov; [|discriminate]. injection E as <-. repeat split.
    + intros y; unfold types_of. rewrite add_fun_assoc. destruct (String.eqb_spec x y) as [->|]; auto. rewrite Q; auto.
    + rewrite add_fun_assoc, String.eqb_refl, Q. eexists; split; [reflexivity|]. cbn. apply in_or_app; cbn; auto.
    + intros y r H. rewrite add_fun_assoc, H. destruct (String.eqb x y); eexists; split; try reflexivity; cbn; intros g I; auto. apply in_or_app; auto.
    + intros y r g H I. rewrite add_fun_assoc in H. destruct (String.eqb_spec x y) as [->|]; [|right; eauto].
      rewrite Q in H. injection H as <-. cbn in I. apply in_app_or in I as [I|[->|[]]]; auto. right; eauto.
    + discriminate.
  - injection E as <-. repeat split; auto.
    + intros y; unfold types_of; cbn. destruct (String.eqb_spec y x) as [->|]; auto. rewrite Q; auto.
    + cbn. rewrite String.eqb_refl. eexists; split; [reflexivity|]; cbn; auto.
    + intros y r H; cbn. destruct (String.eqb_spec y x) as [->|]; [congruence|]. exists r; split; auto. apply incl_refl.
    + intros y r g H I; cbn in H. destruct (String.eqb_spec y x) as [->|]; [|right; eauto]. injection H as <-. destruct I as [->|[]]; auto.
Qed.

Lemma existsb_str : forall x l, existsb (String.eqb x) l = true <-> In x l.
Proof. intros x l; rewrite existsb_exists. split; [intros (y & I & E); apply String.eqb_eq in E; subst; auto|intros I; exists x; split; auto; apply String.eqb_refl]. Qed.

Lemma check_params_ok : forall env ps taken, check_params env taken ps = [] -> NoDup taken ->
  Forall (fun p => known_type env (snd p) = true) ps /\ NoDup (rev (map fst ps) ++ taken).
Proof.
  intros env; induction ps as [|[x e] ps IH]; intros taken E N; cbn in *; [auto|].
  destruct (known_type env e) eqn:K; [|discriminate]. destruct (existsb (String.eqb x) taken) eqn:X; [discriminate|]. cbn in E.
  destruct (IH (x :: taken) E) as [A B].
  - constructor; auto. intros I; apply existsb_str in I; congruence.
  - split; [constructor; auto|]. rewrite <- app_assoc; auto.
Qed.
Lemma nodup_rev_app : forall {A} (l m : list A), NoDup (rev l ++ m) -> NoDup (m ++ l).
Proof. intros A l m. apply Permutation_NoDup. rewrite Permutation_app_comm. apply Permutation_app_head. symmetry; apply Permutation_rev. Qed.

(** Names of parameters with those of the type parameters before them. *)
Lemma process_fn_ok : forall root next f outer x tps ps ret b ov root' next' sig,
  process_fn root next f outer x tps ps ret b ov = ([], root', next', sig) ->
  exists own, own_params next [] tps = ([], own, next') /\ sig = Fsig x (outer ++ own) ps ret b /\
    define_fun root x f ov = Some root' /\ NoDup (tps ++ map fst ps).
Proof.
  intros root next f outer x tps ps ret b ov root' next' sig E; unfold process_fn in E.
  destruct (own_params next [] tps) as [[e own] n] eqn:O. destruct (define_fun root x f ov) as [r|] eqn:D; [|discriminate].
  destruct e; [|discriminate]. destruct (check_params (type_env (own ++ outer) r) (map fst own) ps) eqn:C; [|discriminate].
  injection E as E <- <- <-. exists own. repeat split; auto.
  destruct (numbered_own _ _ _ _ O) as ((A & _) & N & _). rewrite A in C. apply check_params_ok in C; auto. destruct C as [_ C].
  apply nodup_rev_app; auto.
Qed.

Lemma add_fields_ok : forall env fs taken l, add_fields env taken fs = ([], l) -> NoDup taken -> l = fs /\ NoDup (taken ++ map fst fs).
Proof.
  intros env; induction fs as [|[x e] fs IH]; intros taken l E N; cbn in E.
  - injection E as <-; cbn; rewrite app_nil_r; auto.
  - destruct (known_type env e); cbn in E; [|destruct (add_fields env taken fs); discriminate].
    destruct (existsb (String.eqb x) taken) eqn:X; [destruct (add_fields env taken fs); discriminate|].
    destruct (add_fields env (x :: taken) fs) as [es l'] eqn:A. injection E as -> <-. apply IH in A.
    + destruct A as [-> A]; split; auto. cbn in *. eapply Permutation_NoDup; [|exact A]. apply Permutation_cons_app. reflexivity.
    + constructor; auto. intros I; apply existsb_str in I; congruence.
Qed.

(** The signatures of the constructors of an enum. *)
Fixpoint member_sigs (x : string) (tbl : list (string * nat)) (tag : nat) (ms : list (string * list (string * texp))) : list fsig :=
  match ms with
  | [] => []
  | (y, ps) :: ms' => Fsig y tbl ps (Some (XNamed x None)) (SCons x tag) :: member_sigs x tbl (S tag) ms'
  end.
Lemma member_sigs_length : forall x tbl ms tag, List.length (member_sigs x tbl tag ms) = List.length ms.
Proof. intros x tbl; induction ms as [|[y ps] ms IH]; intros tag; cbn; auto. Qed.
Lemma member_sigs_nth : forall x tbl ms tag i, nth_error (member_sigs x tbl tag ms) i =
  option_map (fun m => Fsig (fst m) tbl (snd m) (Some (XNamed x None)) (SCons x (tag + i))) (nth_error ms i).
Proof.
  intros x tbl; induction ms as [|[y ps] ms IH]; intros tag i; cbn; [destruct i; auto|]. destruct i; cbn; [rewrite Nat.add_0_r; auto|].
  rewrite IH. rewrite Nat.add_succ_r; auto.
Qed.

(** What the second pass keeps about names and functions. *)
Definition same_types (r1 r2 : rtab) : Prop := forall x, types_of r1 x = types_of r2 x.
Definition funs_named (root : rtab) (funs : list fsig) : Prop :=
  (forall x r f, assoc x root = Some r -> In f (r_funs r) -> f < 2 + List.length funs) /\
  (forall k sig, nth_error funs k = Some sig -> exists r, assoc (s_name sig) root = Some r /\ In (2 + k) (r_funs r)).

Lemma nth_app_last : forall {A} (l : list A) a k b, nth_error (l ++ [a]) k = Some b -> nth_error l k = Some b \/ (k = List.length l /\ b = a).
Proof.
  intros A l a k b E. destruct (Nat.lt_ge_cases k (List.length l)).
  - rewrite nth_error_app1 in E; auto.
  - rewrite nth_error_app2 in E; auto. destruct (k - List.length l) as [|j] eqn:K; cbn in E; [injection E as <-; right; split; auto; lia|destruct j; discriminate].
Qed.
Lemma funs_named_step : forall root funs x ov root' sig, funs_named root funs -> define_fun root x (2 + List.length funs) ov = Some root' ->
  s_name sig = x -> funs_named root' (funs ++ [sig]).
Proof.
  intros root funs x ov root' sig [A B] D <-. destruct (define_fun_ok _ _ _ _ _ D) as (_ & F & K & O & _). split.
  - intros y r f E I. rewrite app_length; cbn. destruct (O _ _ _ E I) as [->|(r0 & E0 & I0)]; [lia|]. specialize (A _ _ _ E0 I0); lia.
  - intros k s E. apply nth_app_last in E as [E|[-> ->]]; [|exact F].
    destruct (B _ _ E) as (r & R & I). destruct (K _ _ R) as (r' & R' & J). eauto.
Qed.

Lemma add_members_ok : forall ms s x tbl tag s' l, add_members s x tbl tag ms = (s', l) -> st_errs s' = [] ->
  st_errs s = [] /\ st_funs s' = st_funs s ++ member_sigs x tbl tag ms /\ l = seq (next_fun s) (List.length ms) /\
  st_structs s' = st_structs s /\ st_enums s' = st_enums s /\ same_types (st_root s') (st_root s) /\
  (funs_named (st_root s) (st_funs s) -> funs_named (st_root s') (st_funs s')) /\
  (forall y, assoc y (st_root s) <> None -> assoc y (st_root s') <> None) /\
  Forall (fun y => assoc y (st_root s) = None /\ assoc y (st_root s') <> None) (map fst ms) /\ NoDup (map fst ms) /\
  (forall y ps, In (y, ps) ms -> NoDup (map fst ps)) /\ st_next s <= st_next s'.
Proof.
  induction ms as [|[y ps] ms IH]; intros s x tbl tag s' l E Q; cbn [add_members] in E.
  - injection E as <- <-. cbn. rewrite app_nil_r. repeat (apply conj); auto; try solve [constructor | intros ? ? [] | intros ?; reflexivity].
  - destruct (process_fn (st_root s) (st_next s) (next_fun s) tbl y [] ps (Some (XNamed x None)) (SCons x tag) false) as [[[e root] next] sig] eqn:P.
    destruct e as [|e0 e].
    2:{ injection E as <- <-. cbn in Q. apply app_eq_nil in Q as [_ Q]; discriminate. }
    destruct (max_case_args <? List.length ps).
    { apply IH in E; auto. destruct E as [E _]. cbn in E. apply app_eq_nil in E as [_ E]; discriminate. }
    destruct (add_members _ x tbl (S tag) ms) as [s2 l2] eqn:A. injection E as <- <-.
    destruct (IH _ _ _ _ _ _ A Q) as (H1 & H2 & H3 & H4 & H5 & H6 & H7 & H8 & H9 & H10 & H11 & H12).
    cbn [st_errs st_root st_next st_funs st_structs st_enums] in *. rewrite app_nil_r in H1.
    destruct (process_fn_ok _ _ _ _ _ _ _ _ _ _ _ _ _ P) as (own & O & -> & D & N). cbn in O. injection O as <- <-. rewrite app_nil_r in *.
    destruct (define_fun_ok _ _ _ _ _ D) as (T & F & K & _ & Z). cbn in N.
    assert (Y : assoc y root <> None) by (destruct F as (r & F & _); congruence).
    repeat split; auto.
    + rewrite H2, <- app_assoc; reflexivity.
    + rewrite H3. unfold next_fun; cbn [st_funs]. rewrite app_length; cbn. f_equal. f_equal. lia.
    + intros z. rewrite H6. apply T.
    + apply H7. eapply funs_named_step; eauto.
    + apply H7. eapply funs_named_step; eauto.
    + intros z Iz. apply H8. destruct (assoc z (st_root s)) eqn:W; [|congruence]. destruct (K _ _ W) as (r' & -> & _). discriminate.
    + constructor; [split; auto|]. eapply Forall_impl; [|exact H9]. cbn. intros z [Z1 Z2]; split; auto.
      destruct (assoc z (st_root s)) eqn:W; auto. destruct (K _ _ W) as (r' & R' & _). congruence.
    + cbn. constructor; auto. intros I. rewrite Forall_forall in H9. apply H9 in I. tauto.
    + intros z qs [I|I]; [injection I as -> ->; auto|eauto].
Qed.

Notation table := (list (string * nat)).
Definition structs_of (l : list (decl * table)) : list (string * (table * list (string * texp))) :=
  flat_map (fun d => match fst d with DStruct x _ fs => [(x, (snd d, fs))] | _ => [] end) l.
Definition enums_of (l : list (decl * table)) : list (string * (table * list (string * list (string * texp)))) :=
  flat_map (fun d => match fst d with DEnum x _ ms => [(x, (snd d, ms))] | _ => [] end) l.
Definition cons_sig (x : string) (tbl : table) (tag : nat) (m : string * list (string * texp)) : fsig :=
  Fsig (fst m) tbl (snd m) (Some (XNamed x None)) (SCons x tag).
Definition enum_rel (funs : list fsig) (a : string * (table * list (string * list (string * texp)))) (b : string * (table * list nat)) : Prop :=
  fst a = fst b /\ fst (snd a) = fst (snd b) /\ exists start, snd (snd b) = seq (2 + start) (List.length (snd (snd a))) /\
  forall tag m, nth_error (snd (snd a)) tag = Some m -> nth_error funs (start + tag) = Some (cons_sig (fst a) (fst (snd a)) tag m).
Definition unrepeated (d : decl) : Prop :=
  match d with
  | DStruct _ tps fs => NoDup (tps ++ map fst fs)
  | DEnum x tps ms => NoDup tps /\ forall y ps, In (y, ps) ms -> NoDup (map fst ps)
  | DFn _ tps ps _ _ => NoDup (tps ++ map fst ps)
  end.

Record Inv (root : rtab) (done : list (decl * table)) (s : state) : Prop := {
  i_errs : st_errs s = [];
  i_types : same_types (st_root s) root;
  i_named : funs_named (st_root s) (st_funs s);
  i_structs : st_structs s = structs_of done;
  i_enums : Forall2 (enum_rel (st_funs s)) (enums_of done) (st_enums s);
  i_fns : forall x tps ps ret b tbl, In (DFn x tps ps ret b, tbl) done ->
    exists k own, nth_error (st_funs s) k = Some (Fsig x own ps ret (SFn b)) /\ numbered tps own;
  i_cons : forall k sig, nth_error (st_funs s) k = Some sig -> 
    match s_body sig with
    | SFn b => exists tps tbl, numbered tps (s_types sig) /\ In (DFn (s_name sig) tps (s_params sig) (s_ret sig) b, tbl) done
    | SCons x tag => exists tbl members start m, In (x, (tbl, members)) (enums_of done) /\ In (x, (tbl, seq (2 + start) (List.length members))) (st_enums s) /\
        k = start + tag /\ nth_error members tag = Some m /\ sig = cons_sig x tbl tag m
    end;
  i_members : NoDup (member_names (map fst done)) /\ Forall (fun y => assoc y (st_root s) <> None) (member_names (map fst done));
  i_unrep : Forall (fun d => unrepeated (fst d)) done
}.

Lemma enum_rel_more : forall f g a b, enum_rel f a b -> enum_rel (f ++ g) a b.
Proof.
  intros f g a b (A & B & start & C & D). repeat split; auto. exists start; split; auto. intros tag m E. apply D in E.
  rewrite nth_error_app1; auto. apply nth_error_Some; congruence.
Qed.
Lemma nth_error_app_some : forall {A} (l m : list A) k a, nth_error l k = Some a -> nth_error (l ++ m) k = Some a.
Proof. intros A l m k a E. rewrite nth_error_app1; auto. apply nth_error_Some; congruence. Qed.
Lemma forall2_app_one : forall {A B} (R : A -> B -> Prop) l m a b, Forall2 R l m -> R a b -> Forall2 R (l ++ [a]) (m ++ [b]).
Proof. intros; apply Forall2_app; auto. Qed.

Lemma forall2_impl : forall {A B} (R S : A -> B -> Prop) l m, (forall a b, R a b -> S a b) -> Forall2 R l m -> Forall2 S l m.
Proof. intros A B R S l m H; induction 1; constructor; auto. Qed.
Lemma forall2_length : forall {A B} (R : A -> B -> Prop) l m, Forall2 R l m -> List.length l = List.length m.
Proof. intros A B R l m; induction 1; cbn; auto. Qed.
Lemma nodup_app_l : forall {A} (l m : list A), NoDup (l ++ m) -> NoDup l.
Proof. intros A; induction l as [|a l IH]; intros m N; constructor; inversion N; subst; eauto. intros I; apply H1; apply in_or_app; auto. Qed.
Lemma NoDup_app_intro : forall {A} (l m : list A), NoDup l -> NoDup m -> (forall x, In x l -> ~ In x m) -> NoDup (l ++ m).
Proof.
  intros A; induction l as [|a l IH]; intros m N M D; cbn; auto. inversion N; subst. constructor.
  - intros I; apply in_app_or in I as [I|I]; auto. apply (D a); cbn; auto.
  - apply IH; auto. intros x I; apply D; cbn; auto.
Qed.

Lemma pass2_ok : forall root done s d, Inv root done s -> numbered (decl_params (fst d)) (snd d) -> NoDup (decl_params (fst d)) ->
  st_errs (pass2 s d) = [] -> Inv root (done ++ [d]) (pass2 s d).
Proof.
  intros root done s [d tbl] I [N1 N2] N3 Q; unfold pass2 in *; cbn [fst snd] in *. destruct I as [I1 I2 I3 I4 I5 I6 I7 [I8 I8'] I9].
  destruct d as [x tps fs|x tps ms|x tps ps ret b]; cbn [decl_params] in *.
  - destruct (add_fields (type_env tbl (st_root s)) (map fst tbl) fs) as [e l] eqn:A. cbn [st_errs] in Q. rewrite I1 in Q; cbn in Q; subst e.
    apply add_fields_ok in A; [|rewrite N1; auto]. destruct A as [-> A]. rewrite N1 in A.
    constructor; cbn [st_errs st_root st_next st_funs st_structs st_enums]; auto.
    + rewrite I1; auto.
    + rewrite I4; unfold structs_of; rewrite flat_map_app; reflexivity.
    + unfold enums_of; rewrite flat_map_app; cbn; rewrite app_nil_r; auto.
    + intros y tps0 ps ret b tbl0 H. apply in_app_or in H as [H|[H|[]]]; [eauto|discriminate].
    + intros k sig K. specialize (I7 k sig K). destruct (s_body sig).
      * destruct I7 as (tps1 & tbl1 & J & K1). exists tps1, tbl1. split; auto. apply in_or_app; auto.
      * destruct I7 as (tbl1 & mm & st & m & K1 & K2 & K3). exists tbl1, mm, st, m. repeat split; try tauto.
        unfold enums_of; rewrite flat_map_app; apply in_or_app; auto.
    + rewrite map_app. unfold member_names; rewrite flat_map_app; cbn; rewrite app_nil_r; auto.
    + apply Forall_app; split; auto.
  - destruct (add_members s x tbl 0 ms) as [s1 l] eqn:A. cbn [st_errs] in Q.
    destruct (add_members_ok _ _ _ _ _ _ _ A Q) as (H1 & H2 & H3 & H4 & H5 & H6 & H7 & H8 & H9 & H10 & H11 & H12).
    assert (R : enum_rel (st_funs s1) (x, (tbl, ms)) (x, (tbl, l))).
    { repeat split; cbn. exists (List.length (st_funs s)). split; [exact H3|]. intros tag m M. rewrite H2.
      rewrite nth_error_app2 by lia. replace (List.length (st_funs s) + tag - List.length (st_funs s)) with tag by lia.
      rewrite member_sigs_nth, M. reflexivity. }
    constructor; cbn [st_errs st_root st_next st_funs st_structs st_enums]; auto.
    + intros y. rewrite H6; apply I2.
    + rewrite H4, I4; unfold structs_of; rewrite flat_map_app; cbn; rewrite app_nil_r; reflexivity.
    + unfold enums_of; rewrite flat_map_app; cbn. rewrite H5. apply forall2_app_one; auto. rewrite H2.
      eapply forall2_impl; [|exact I5]. intros; apply enum_rel_more; auto.
    + intros y tps0 ps ret b tbl0 H. apply in_app_or in H as [H|[H|[]]]; [|discriminate]. destruct (I6 _ _ _ _ _ _ H) as (k & own & K & M).
      exists k, own; split; auto. rewrite H2. apply nth_error_app_some; auto.
    + intros k sig K. rewrite H2 in K. destruct (Nat.lt_ge_cases k (List.length (st_funs s))) as [L|L].
      * rewrite nth_error_app1 in K; auto. specialize (I7 k sig K). destruct (s_body sig).
        { destruct I7 as (tps1 & tbl1 & J & K1). exists tps1, tbl1. split; auto. apply in_or_app; auto. }
        destruct I7 as (tbl1 & mm & st & m & K1 & K2 & K3). exists tbl1, mm, st, m. repeat split; try tauto.
        -- unfold enums_of; rewrite flat_map_app; apply in_or_app; auto.
        -- rewrite H5; apply in_or_app; auto.
      * rewrite nth_error_app2 in K; auto. rewrite member_sigs_nth in K. destruct (nth_error ms (k - List.length (st_funs s))) as [m|] eqn:M; [|discriminate].
        cbn in K. injection K as <-. cbn. exists tbl, ms, (List.length (st_funs s)), m. repeat split; auto.
        -- unfold enums_of; rewrite flat_map_app; apply in_or_app; cbn; auto.
        -- apply in_or_app; right; left. rewrite H3; reflexivity.
        -- lia.
    + rewrite map_app. unfold member_names; rewrite flat_map_app; cbn; rewrite app_nil_r. fold (member_names (map fst done)). split.
      * apply NoDup_app_intro; auto. intros y Y Z. rewrite Forall_forall in I8', H9. apply I8' in Y. apply H9 in Z. tauto.
      * apply Forall_app; split; [eapply Forall_impl; [|exact I8']; cbn; auto|eapply Forall_impl; [|exact H9]; cbn; tauto].
    + apply Forall_app; split; auto. constructor; auto. cbn. auto.
  - destruct (process_fn (st_root s) (st_next s) (next_fun s) [] x tps ps ret (SFn b) true) as [[[e r] n] sig] eqn:P.
    cbn [st_errs] in Q. rewrite I1 in Q; cbn in Q; subst e.
    destruct (process_fn_ok _ _ _ _ _ _ _ _ _ _ _ _ _ P) as (own & O & -> & D & N). cbn [app] in *.
    destruct (define_fun_ok _ _ _ _ _ D) as (T & F & K & _ & _). destruct (numbered_own _ _ _ _ O) as (M1 & M2 & _).
    constructor; cbn [st_errs st_root st_next st_funs st_structs st_enums]; auto.
    + rewrite I1; auto.
    + intros y; rewrite T; apply I2.
    + eapply funs_named_step; eauto.
    + rewrite I4; unfold structs_of; rewrite flat_map_app; cbn; rewrite app_nil_r; reflexivity.
    + unfold enums_of; rewrite flat_map_app; cbn; rewrite app_nil_r. eapply forall2_impl; [|exact I5]. intros; apply enum_rel_more; auto.
    + intros y tps0 ps0 ret0 b0 tbl0 H. apply in_app_or in H as [H|[H|[]]].
      * destruct (I6 _ _ _ _ _ _ H) as (k & own0 & K0 & M). exists k, own0; split; auto. apply nth_error_app_some; auto.
      * injection H as -> -> -> -> -> ->. exists (List.length (st_funs s)), own. split; auto. rewrite nth_error_app2, Nat.sub_diag; auto.
    + intros k sig H. apply nth_app_last in H as [H|[-> ->]].
      * specialize (I7 k sig H). destruct (s_body sig).
        { destruct I7 as (tps1 & tbl1 & J & K1). exists tps1, tbl1. split; auto. apply in_or_app; auto. }
        destruct I7 as (tbl1 & mm & st & m & K1 & K2 & K3). exists tbl1, mm, st, m. repeat split; try tauto.
        unfold enums_of; rewrite flat_map_app; apply in_or_app; auto.
      * cbn. exists tps, tbl. split; [exact M1|]. apply in_or_app; cbn; auto.
    + rewrite map_app. unfold member_names; rewrite flat_map_app; cbn; rewrite app_nil_r. fold (member_names (map fst done)). split; auto.
      eapply Forall_impl; [|exact I8']; cbn. intros y Y. destruct (assoc y (st_root s)) eqn:W; [|congruence]. destruct (K _ _ W) as (r' & -> & _). discriminate.
    + apply Forall_app; split; auto.
Qed.

Lemma add_members_errs : forall ms s x tbl tag, st_errs (fst (add_members s x tbl tag ms)) = [] -> st_errs s = [].
Proof. intros ms s x tbl tag E. destruct (add_members s x tbl tag ms) as [s' l] eqn:A. apply add_members_ok in A; tauto. Qed.
Lemma pass2_errs : forall s d, st_errs (pass2 s d) = [] -> st_errs s = [].
Proof.
  intros s [d tbl] E; unfold pass2 in E; cbn [fst snd] in E. destruct d as [x tps fs|x tps ms|x tps ps ret b].
  - destruct (add_fields _ _ fs); cbn in E. apply app_eq_nil in E; tauto.
  - destruct (add_members s x tbl 0 ms) as [s1 l] eqn:A; cbn in E. apply add_members_ok in A; tauto.
  - destruct (process_fn _ _ _ _ _ _ _ _ _ _) as [[[? ?] ?] ?]; cbn in E. apply app_eq_nil in E; tauto.
Qed.
Lemma fold_errs : forall l s, st_errs (fold_left pass2 l s) = [] -> st_errs s = [].
Proof. induction l as [|d l IH]; intros s E; cbn in E; auto. apply IH in E. eapply pass2_errs; eauto. Qed.
Lemma fold_ok : forall root l done s, Inv root done s -> 
  Forall (fun d => numbered (decl_params (fst d)) (snd d) /\ NoDup (decl_params (fst d))) l ->
  st_errs (fold_left pass2 l s) = [] -> Inv root (done ++ l) (fold_left pass2 l s).
Proof.
  intros root; induction l as [|d l IH]; intros done s I N E; cbn in *; [rewrite app_nil_r; auto|]. inversion N as [|? ? [A B] C]; subst.
  replace (done ++ d :: l) with ((done ++ [d]) ++ l) by (rewrite <- app_assoc; auto). apply IH; auto.
  apply pass2_ok; auto. eapply fold_errs; eauto.
Qed.

(* ------------------------------------------------------------------------ instantiation *)

Lemma lookup_combine : forall ps us p i, NoDup ps -> nth_error ps i = Some p -> lookup (combine ps us) p = nth_error us i.
Proof.
  induction ps as [|q ps IH]; intros us p i N E; [destruct i; discriminate|]. inversion N; subst. destruct us as [|u us]; cbn.
  - destruct i; auto.
  - destruct i; cbn in *; [injection E as ->; rewrite Nat.eqb_refl; auto|]. destruct (Nat.eqb_spec q p) as [->|]; auto.
    exfalso; apply H1. eapply nth_error_In; eauto.
Qed.
Lemma subst_params : forall b ps, b <> [] ->
  (fix all (ts : list ty) : list ty := match ts with [] => [] | a :: ts' => subst a b :: all ts' end) (map TParam ps) =
  map (fun p => match lookup b p with Some u => u | None => TParam p end) ps.
Proof. intros b ps B; induction ps as [|p ps IH]; cbn; auto. rewrite IH. destruct b; [congruence|]. reflexivity. Qed.
Lemma nth_ext : forall {A} (l m : list A), (forall i, nth_error l i = nth_error m i) -> l = m.
Proof.
  intros A; induction l as [|a l IH]; intros [|b m] H; auto; try (specialize (H 0); discriminate).
  f_equal; [specialize (H 0); cbn in H; congruence|]. apply IH. intros i. exact (H (S i)).
Qed.
Lemma map_lookup : forall ps us, NoDup ps -> List.length ps = List.length us ->
  map (fun p => match lookup (combine ps us) p with Some u => u | None => TParam p end) ps = us.
Proof.
  intros ps us N L. apply nth_ext. intros i. rewrite nth_error_map. destruct (nth_error ps i) as [p|] eqn:E; cbn.
  - rewrite (lookup_combine _ _ _ _ N E). destruct (nth_error us i) eqn:U; auto. apply nth_error_None in U.
    assert (i < List.length ps) by (apply nth_error_Some; congruence). lia.
  - apply nth_error_None in E. symmetry; apply nth_error_None. lia.
Qed.
Lemma param_ids_params : forall ps, param_ids (map TParam ps) = ps.
Proof. unfold param_ids; intros; rewrite map_map, map_id; auto. Qed.
Lemma combine_some : forall {A B} (ps : list A) (us : list B), ps <> [] -> List.length ps = List.length us -> combine ps us <> [].
Proof. intros A B [|p ps] [|u us] H L; cbn in *; congruence. Qed.
Lemma subst_struct : forall n ps us, NoDup ps -> ps <> [] -> List.length ps = List.length us ->
  subst (TStruct 0 n (map TParam ps)) (combine ps us) = TStruct 0 n us.
Proof.
  intros n ps us N Z L. pose proof (combine_some _ _ Z L) as B. cbn. rewrite subst_params by auto. rewrite map_lookup by auto.
  destruct (combine ps us); [congruence|reflexivity].
Qed.
Lemma subst_enum : forall n ps us, NoDup ps -> ps <> [] -> List.length ps = List.length us ->
  subst (TEnum 0 n (map TParam ps)) (combine ps us) = TEnum 0 n us.
Proof.
  intros n ps us N Z L. pose proof (combine_some _ _ Z L) as B. cbn. rewrite subst_params by auto. rewrite map_lookup by auto.
  destruct (combine ps us); [congruence|reflexivity].
Qed.

(** Types found under a name. *)
Definition raw (E : genv) (x : string) (t : ty) : Prop :=
  In (x, t) built_in \/ (exists ps fs, assoc x (g_structs E) = Some (ps, fs) /\ t = TStruct 0 x (map TParam ps)) \/
  (exists ps ms, assoc x (g_enums E) = Some (ps, ms) /\ t = TEnum 0 x (map TParam ps)).
Definition env_ok (E : genv) (root : rtab) : Prop :=
  (forall x t, name_ok x -> (types_of root x = Some (true, t) <-> raw E x t)) /\
  (forall x ps fs, assoc x (g_structs E) = Some (ps, fs) -> NoDup ps) /\
  (forall x ps ms, assoc x (g_enums E) = Some (ps, ms) -> NoDup ps).

Lemma type_env_of : forall E root scope, env_ok E root -> env_of E scope (type_env scope root).
Proof.
  intros E root scope (R & _) x N t; unfold type_env. specialize (R x t N). unfold types_of in R. destruct (assoc x scope) as [p|] eqn:S.
  - split; [intros H; injection H as <-; constructor; auto|]. intros D; inversion D; subst; congruence.
  - split.
    + intros H. destruct (assoc x root) as [[[[[] u]|] ?]|] eqn:Q; try discriminate. injection H as ->.
      destruct (proj1 R eq_refl) as [B|[(ps & fs & A & ->)|(ps & ms & A & ->)]]; [constructor 2|econstructor 3|econstructor 4]; eauto.
    + intros D. assert (K : raw E x t).
      { inversion D; subst; [congruence|left; auto|right; left; eauto|right; right; eauto]. }
      apply R in K. destruct (assoc x root) as [[[[[] u]|] ?]|]; cbn in K; try discriminate. injection K as ->. auto.
Qed.

Lemma all_some_ok : forall {A} (l : list (option A)) r, all_some l = Some r -> l = map Some r.
Proof.
  intros A; induction l as [|[a|] l IH]; intros r E; cbn in E; try discriminate; [injection E as <-; auto|].
  destruct (all_some l); [|discriminate]. injection E as <-. cbn. f_equal; auto.
Qed.

Lemma instantiate_denotes : forall E root scope e o, env_ok E root -> names_ok e -> instantiate (type_env scope root) e = ([], o) ->
  exists t, o = Some t /\ denotes E scope e t.
Proof.
  intros E root scope e o K; revert o. pose proof (type_env_of E root scope K) as R. destruct K as (_ & KS & KE).
  assert (ALL : forall es, Forall (fun e => forall o, names_ok e -> instantiate (type_env scope root) e = ([], o) -> exists t, o = Some t /\ denotes E scope e t) es ->
    Forall names_ok es -> flat_map fst (map (instantiate (type_env scope root)) es) = [] ->
    exists ts, all_some (map snd (map (instantiate (type_env scope root)) es)) = Some ts /\ Forall2 (denotes E scope) es ts).
  { clear e. induction es as [|e es IH]; intros F N Z; cbn in *; [exists []; auto|]. inversion F; subst. inversion N; subst. apply app_eq_nil in Z as [Z1 Z2].
    destruct (IH H2 H4 Z2) as (ts & A & B). destruct (instantiate (type_env scope root) e) as [er o] eqn:I. cbn in Z1; subst er.
    destruct (H1 o H3 eq_refl) as (t & -> & D). cbn. rewrite A. eauto. }
  induction e as [n|n es IH|es IH|es r IH IHr|x IH] using texp_induct; intros o N I; inversion N; subst; cbn in I.
  - destruct (type_env scope root n) as [t|] eqn:T; [|discriminate]. injection I as <-. exists t; split; auto. apply R; auto.
  - destruct (type_env scope root n) as [t|] eqn:T; [|discriminate]. apply R in T; auto.
    assert (X : forall e, flat_map fst (map (instantiate (type_env scope root)) es) ++ [e] <> []) by (intros e0 X; apply app_eq_nil in X as [_ X]; discriminate).
    destruct t; try (injection I as I _; exfalso; exact (X _ I)).
    + destruct (Nat.eqb_spec (List.length types) 0) as [|L]; [injection I as I _; exfalso; exact (X _ I)|].
      destruct (Nat.eqb_spec (List.length types) (List.length es)) as [L'|]; [|injection I as I _; exfalso; exact (X _ I)]. cbn [negb] in I.
      destruct (flat_map fst (map (instantiate (type_env scope root)) es)) eqn:F; [|discriminate].
      destruct (ALL es IH ltac:(auto) F) as (ts & A & D). rewrite A in I. apply (f_equal snd) in I; cbn [snd] in I; subst o. eexists; split; [reflexivity|].
      inversion T as [|? ? ? B|? ps fs A1 A2 E1|? ps fs A1 A2 E1| | | | |]; subst; [cbn in B; intuition congruence|].
      rewrite map_length in L, L'. rewrite param_ids_params. pose proof (forall2_length _ _ _ D).
      rewrite subst_struct; [|eauto|intros ->; auto|lia]. econstructor; eauto. intros ->; auto.
    + destruct (Nat.eqb_spec (List.length types) 0) as [|L]; [injection I as I _; exfalso; exact (X _ I)|].
      destruct (Nat.eqb_spec (List.length types) (List.length es)) as [L'|]; [|injection I as I _; exfalso; exact (X _ I)]. cbn [negb] in I.
      destruct (flat_map fst (map (instantiate (type_env scope root)) es)) eqn:F; [|discriminate].
      destruct (ALL es IH ltac:(auto) F) as (ts & A & D). rewrite A in I. apply (f_equal snd) in I; cbn [snd] in I; subst o. eexists; split; [reflexivity|].
      inversion T as [|? ? ? B|? ps fs A1 A2 E1|? ps fs A1 A2 E1| | | | |]; subst; [cbn in B; intuition congruence|].
      rewrite map_length in L, L'. rewrite param_ids_params. pose proof (forall2_length _ _ _ D).
      rewrite subst_enum; [|eauto|intros ->; auto|lia]. econstructor; eauto. intros ->; auto.
  - rewrite app_nil_r in I. destruct (flat_map fst (map (instantiate (type_env scope root)) es)) eqn:F; [|discriminate].
    destruct (ALL es IH ltac:(auto) F) as (ts & A & D). rewrite A in I. injection I as <-. eexists; split; [reflexivity|]. constructor; auto.
  - destruct (instantiate (type_env scope root) r) as [er oo] eqn:RR. cbn in I.
    destruct (flat_map fst (map (instantiate (type_env scope root)) es)) eqn:F; [|discriminate]. cbn in I. destruct er; [|discriminate].
    destruct (ALL es IH ltac:(auto) F) as (ts & A & D). rewrite A in I. destruct (IHr oo ltac:(auto) eq_refl) as (t & -> & D').
    injection I as <-. eexists; split; [reflexivity|]. constructor; auto.
  - destruct (instantiate (type_env scope root) x) as [er oo] eqn:RR. destruct er; [|discriminate].
    destruct (IH oo ltac:(auto) eq_refl) as (t & -> & D). injection I as <-. eexists; split; [reflexivity|]. constructor; auto.
Qed.

Lemma inst_all_denotes : forall E root scope l, env_ok E root -> Forall (fun p => names_ok (snd p)) l -> fst (inst_all (type_env scope root) l) = [] ->
  denote_all E scope l (snd (inst_all (type_env scope root) l)).
Proof.
  intros E root scope l K; unfold denote_all; cbn. induction l as [|[x e] l IH]; intros N Z; cbn in *; constructor; inversion N; subst.
  - apply app_eq_nil in Z as [Z _]. destruct (instantiate (type_env scope root) e) as [er o] eqn:I. cbn in Z; subst.
    destruct (instantiate_denotes E root scope e o K) as (t & -> & D); auto.
  - apply app_eq_nil in Z as [_ Z]. auto.
Qed.

(* ------------------------------------------------------------------- struct constructors *)

Definition cons_def (d : string * (table * list (string * ty))) : fdef :=
  Fdef (fst (snd d)) (snd (snd d)) (TStruct 0 (fst d) (map TParam (map snd (fst (snd d))))) (BStruct (fst d)).
Lemma add_constructors_ok : forall l root names funs root' all, add_constructors root names funs l = Some ([], root', all) ->
  all = funs ++ map cons_def l /\
  (forall y r, assoc y root = Some r -> assoc y root' = Some r) /\
  (forall y r, assoc y root' = Some r -> assoc y root = Some r \/ exists i, i < List.length l /\ r = Rsym None [List.length funs + i]) /\
  (forall i d, nth_error l i = Some d -> exists c rest, fst d = String c rest /\ assoc (upper c ++ rest)%string root' = Some (Rsym None [List.length funs + i])).
Proof.
  induction l as [|[x [tbl fs]] l IH]; intros root names funs root' all E; cbn [add_constructors] in E.
  - injection E as <- <-. cbn. rewrite app_nil_r. repeat split; auto. intros i d H; destruct i; discriminate.
  - unfold struct_cons in E. destruct x as [|c rest]; [discriminate|]. destruct (String.eqb (upper c) (String c "")).
    { destruct (add_constructors root names funs l) as [[[? ?] ?]|]; discriminate. }
    destruct (assoc (upper c ++ rest)%string root) eqn:Q.
    { destruct (existsb _ names); [|discriminate]. destruct (add_constructors root names funs l) as [[[? ?] ?]|]; discriminate. }
    apply IH in E. destruct E as (-> & A & B & C). rewrite app_length in B, C; cbn [List.length] in B, C. split; [|split; [|split]].
    + rewrite <- app_assoc. reflexivity.
    + intros y r H. apply A. cbn. destruct (String.eqb_spec y (upper c ++ rest)); auto. congruence.
    + intros y r H. destruct (B _ _ H) as [H'|(i & I & ->)].
      * cbn in H'. destruct (String.eqb_spec y (upper c ++ rest)); auto. injection H' as <-. right. exists 0. cbn. split; [lia|]. rewrite Nat.add_0_r; auto.
      * right. exists (S i). cbn; split; [lia|]. f_equal. f_equal. lia.
    + intros i d H. destruct i; cbn in H.
      * injection H as <-. exists c, rest. split; auto. rewrite Nat.add_0_r. apply A. cbn. rewrite String.eqb_refl; auto.
      * destruct (C _ _ H) as (c' & rest' & F & G). exists c', rest'. split; auto. rewrite G. f_equal. f_equal. f_equal. lia.
Qed.

(* -------------------------------------------------------------------------- the program *)

Lemma structs_in : forall l x tbl fs, In (x, (tbl, fs)) (structs_of l) <-> exists tps, In (DStruct x tps fs, tbl) l.
Proof.
  intros l x tbl fs; unfold structs_of; rewrite in_flat_map. split.
  - intros ([d t] & I & H). destruct d; cbn in H; try contradiction. destruct H as [H|[]]. injection H as -> -> ->. eauto.
  - intros (tps & I). exists (DStruct x tps fs, tbl). cbn; auto.
Qed.
Lemma enums_in : forall l x tbl ms, In (x, (tbl, ms)) (enums_of l) <-> exists tps, In (DEnum x tps ms, tbl) l.
Proof.
  intros l x tbl fs; unfold enums_of; rewrite in_flat_map. split.
  - intros ([d t] & I & H). destruct d; cbn in H; try contradiction. destruct H as [H|[]]. injection H as -> -> ->. eauto.
  - intros (tps & I). exists (DEnum x tps fs, tbl). cbn; auto.
Qed.
Lemma structs_nodup : forall l, NoDup (map (fun d => decl_name (fst d)) l) -> NoDup (map fst (structs_of l)).
Proof.
  assert (S : forall l y, In y (map fst (structs_of l)) -> In y (map (fun d : decl * table => decl_name (fst d)) l)).
  { intros l y I. apply in_map_iff in I as ((x & tbl & fs) & <- & I). apply structs_in in I as (tps & I). apply in_map_iff. eexists; split; [|exact I]; auto. }
  induction l as [|[d tbl] l IH]; intros N; cbn in *; [constructor|]. inversion N; subst. destruct d; cbn; auto. constructor; auto.
Qed.
Lemma enums_nodup : forall l, NoDup (map (fun d => decl_name (fst d)) l) -> NoDup (map fst (enums_of l)).
Proof.
  assert (S : forall l y, In y (map fst (enums_of l)) -> In y (map (fun d : decl * table => decl_name (fst d)) l)).
  { intros l y I. apply in_map_iff in I as ((x & tbl & fs) & <- & I). apply enums_in in I as (tps & I). apply in_map_iff. eexists; split; [|exact I]; auto. }
  induction l as [|[d tbl] l IH]; intros N; cbn in *; [constructor|]. inversion N; subst. destruct d; cbn; auto. constructor; auto.
Qed.

(** What is known about an accepted program. *)
Record Made (ds : list decl) (P : program) (l : list (decl * table)) (root1 root' : rtab) (s : state) : Prop := {
  m_decls : map fst l = ds;
  m_numbered : Forall (fun d => numbered (decl_params (fst d)) (snd d) /\ NoDup (decl_params (fst d))) l;
  m_root1 : root1 = rev (map type_entry l) ++ std;
  m_nodup : NoDup (map fst root1);
  m_inv : Inv root1 l s;
  m_structs : Forall (fun d => fst (inst_struct (st_root s) d) = []) (st_structs s);
  m_sigs : Forall (fun d => fst (inst_fun (st_root s) d) = []) (st_funs s);
  m_env : p_env P = Genv (map (fun e => (fst e, root_entry (p_funs P) (snd e))) root')
            (map (fun d => (fst d, (map snd (fst (snd d)), snd (snd d)))) (map (fun d => snd (inst_struct (st_root s) d)) (st_structs s)))
            (map (fun e => (fst e, (map snd (fst (snd e)), snd (snd e)))) (st_enums s)) [0; 1];
  m_funs : p_funs P = (std_funs ++ map (fun f => snd (inst_fun (st_root s) f)) (st_funs s)) ++ map cons_def (map (fun d => snd (inst_struct (st_root s) d)) (st_structs s));
  m_keep : forall y r, assoc y (st_root s) = Some r -> assoc y root' = Some r;
  m_new : forall y r, assoc y root' = Some r -> assoc y (st_root s) = Some r \/ 
            exists i, i < List.length (st_structs s) /\ r = Rsym None [2 + List.length (st_funs s) + i];
  m_cons : forall i d, nth_error (st_structs s) i = Some d -> exists c rest, fst d = String c rest /\ 
            assoc (upper c ++ rest)%string root' = Some (Rsym None [2 + List.length (st_funs s) + i])
}.

Lemma std_nodup : NoDup (map fst std).
Proof. cbn. repeat (constructor; [cbn; intuition discriminate|]). constructor. Qed.
Lemma flat_map_nil : forall {A B} (f : A -> list B) l, flat_map f l = [] -> Forall (fun a => f a = []) l.
Proof. intros A B f; induction l as [|a l IH]; intros E; cbn in E; constructor; apply app_eq_nil in E; tauto. Qed.
Lemma forall_map : forall {A B} (f : A -> B) (Q : B -> Prop) l, Forall Q (map f l) -> Forall (fun a => Q (f a)) l.
Proof. intros A B f Q; induction l as [|a l IH]; intros F; cbn in F; inversion F; constructor; auto. Qed.
Lemma inst_struct_name : forall root d, fst (snd (inst_struct root d)) = fst d /\ fst (snd (snd (inst_struct root d))) = fst (snd d) /\
  snd (snd (snd (inst_struct root d))) = snd (inst_all (type_env (fst (snd d)) root) (snd (snd d))) /\
  fst (inst_struct root d) = fst (inst_all (type_env (fst (snd d)) root) (snd (snd d))).
Proof. intros root [x [tbl fs]]; cbn; auto. Qed.

Lemma made : forall ds P, declare_all ds = Accepted P -> exists l root1 root' s, Made ds P l root1 root' s.
Proof.
  intros ds P E; unfold declare_all in E. destruct (pass1 1 std ds) as [[[e1 l] next] root1] eqn:P1. destruct e1; [|discriminate].
  destruct (pass1_ok _ _ _ _ _ _ P1) as (A1 & A2 & A3 & A4). set (s := fold_left pass2 l (State [] root1 next [] [] [])) in *.
  destruct (st_errs s) eqn:S; [|discriminate]. 
  destruct (flat_map fst (map (inst_struct (st_root s)) (st_structs s)) ++ flat_map fst (map (inst_fun (st_root s)) (st_funs s))) eqn:T; [|discriminate].
  apply app_eq_nil in T as [T1 T2].
  destruct (add_constructors _ _ _ _) as [[[[|e4 e4'] root'] all]|] eqn:C; try discriminate. injection E as <-.
  apply add_constructors_ok in C. destruct C as (C1 & C2 & C3 & C4). rewrite !map_map in *.
  exists l, root1, root', s. 
  assert (N : NoDup (map fst root1)) by (apply A4; apply std_nodup).
  constructor; cbn [p_env p_funs]; auto.
  - change l with ([] ++ l). apply fold_ok; auto. constructor; cbn; auto; try solve [constructor | intros; contradiction | intros [|] ? H; discriminate].
    + split; [|intros [|] ? H; discriminate]. intros x r f H I. rewrite A3, assoc_app in H. 
      destruct (assoc x (rev (map type_entry l))) eqn:R.
      * injection H as ->. apply assoc_in in R. rewrite <- in_rev in R. apply in_map_iff in R as (d & D & _). unfold type_entry in D. injection D as _ <-. contradiction.
      * apply assoc_in in H. cbn in H. decompose [or] H; try contradiction; match goal with K : (_, _) = _ |- _ => injection K as _ <-; cbn in I; intuition (subst; cbn; lia) end.
    + split; constructor.
  - apply flat_map_nil in T1. apply forall_map in T1; auto.
  - apply flat_map_nil in T2. apply forall_map in T2; auto.
  - rewrite !map_map. reflexivity.
  - rewrite !map_map. exact C1.
  - intros y r H. apply C3 in H as [H|(i & I & H)]; auto. right. exists i. rewrite map_length in I. split; auto. rewrite H. f_equal. f_equal.
    rewrite app_length, map_length; reflexivity.
  - intros i d H. destruct (C4 i (snd (inst_struct (st_root s) d))) as (c & rest & F & G).
    { rewrite nth_error_map, H; auto. }
    exists c, rest. split; [rewrite (proj1 (inst_struct_name _ _)) in F; auto|]. rewrite G, app_length, map_length. reflexivity.
Qed.

Section Accepted.
  Variables (ds : list decl) (P : program) (l : list (decl * table)) (root1 root' : rtab) (s : state).
  Hypothesis M : Made ds P l root1 root' s.
  Hypothesis names : all_names_ok ds.
  Let E := p_env P.
  Let root := st_root s.

  Lemma in_l : forall d, In d ds -> exists tbl, In (d, tbl) l.
  Proof. intros d I. rewrite <- (m_decls _ _ _ _ _ _ M) in I. apply in_map_iff in I as ([d' tbl] & <- & I). eauto. Qed.
  Lemma l_in : forall d tbl, In (d, tbl) l -> In d ds.
  Proof. intros d tbl I. rewrite <- (m_decls _ _ _ _ _ _ M). apply in_map_iff. exists (d, tbl); auto. Qed.
  Lemma l_numbered : forall d tbl, In (d, tbl) l -> numbered (decl_params d) tbl.
  Proof. intros d tbl I. pose proof (m_numbered _ _ _ _ _ _ M) as F. rewrite Forall_forall in F. apply F in I. tauto. Qed.

  Lemma entry_in : forall d tbl, In (d, tbl) l -> types_of root (decl_name d) = Some (true, decl_type d tbl).
  Proof.
    intros d tbl I. unfold root. rewrite (i_types _ _ _ (m_inv _ _ _ _ _ _ M)). unfold types_of.
    rewrite (in_assoc _ _ (Rsym (Some (true, decl_type d tbl)) []) (m_nodup _ _ _ _ _ _ M)); auto.
    rewrite (m_root1 _ _ _ _ _ _ M). apply in_or_app; left. rewrite <- in_rev. apply in_map_iff. exists (d, tbl); auto.
  Qed.
  Lemma names_nodup : NoDup (map (fun d => decl_name (fst d)) l).
  Proof.
    pose proof (m_nodup _ _ _ _ _ _ M) as N. rewrite (m_root1 _ _ _ _ _ _ M), map_app in N. apply nodup_app_l in N.
    rewrite map_rev, map_map in N. apply NoDup_rev in N. rewrite rev_involutive in N. exact N.
  Qed.

  Lemma g_structs_eq : g_structs E = map (fun d => (fst d, (map snd (fst (snd d)), snd (inst_all (type_env (fst (snd d)) root) (snd (snd d)))))) (structs_of l).
  Proof.
    unfold E. rewrite (m_env _ _ _ _ _ _ M). cbn [g_structs]. rewrite map_map, (i_structs _ _ _ (m_inv _ _ _ _ _ _ M)). apply map_ext.
    intros [x [tbl fs]]; reflexivity.
  Qed.
  Lemma struct_found : forall x tps fs tbl, In (DStruct x tps fs, tbl) l ->
    assoc x (g_structs E) = Some (map snd tbl, snd (inst_all (type_env tbl root) fs)).
  Proof.
    intros x tps fs tbl I. rewrite g_structs_eq. apply in_assoc.
    - rewrite map_map. cbn. apply structs_nodup. apply names_nodup.
    - apply in_map_iff. exists (x, (tbl, fs)). split; auto. apply structs_in; eauto.
  Qed.
  Lemma struct_of_found : forall x ps fs', assoc x (g_structs E) = Some (ps, fs') ->
    exists tps fs tbl, In (DStruct x tps fs, tbl) l /\ ps = map snd tbl /\ fs' = snd (inst_all (type_env tbl root) fs).
  Proof.
    intros x ps fs' H. rewrite g_structs_eq in H. apply assoc_in in H. apply in_map_iff in H as ([y [tbl fs]] & Q & I). cbn [fst snd] in Q.
    apply structs_in in I as (tps & I). injection Q as -> <- <-. exists tps, fs, tbl. auto.
  Qed.
  Lemma enum_names : map fst (st_enums s) = map fst (enums_of l).
  Proof. pose proof (i_enums _ _ _ (m_inv _ _ _ _ _ _ M)) as F. induction F as [|a b la lb R F IH]; cbn; auto. destruct R as (R & _). f_equal; auto. Qed.
  Lemma g_enums_eq : g_enums E = map (fun e => (fst e, (map snd (fst (snd e)), snd (snd e)))) (st_enums s).
  Proof. unfold E. rewrite (m_env _ _ _ _ _ _ M). reflexivity. Qed.
  Lemma forall2_in : forall {A B} (R : A -> B -> Prop) la lb a, Forall2 R la lb -> In a la -> exists b, In b lb /\ R a b.
  Proof. intros A B R la lb a F; induction F; intros I; [contradiction|]. destruct I as [->|I]; [exists y; cbn; auto|]. destruct (IHF I) as (b & K & Q). exists b; cbn; auto. Qed.
  Lemma forall2_in' : forall {A B} (R : A -> B -> Prop) la lb b, Forall2 R la lb -> In b lb -> exists a, In a la /\ R a b.
  Proof. intros A B R la lb b F; induction F; intros I; [contradiction|]. destruct I as [->|I]; [exists x; cbn; auto|]. destruct (IHF I) as (a & K & Q). exists a; cbn; auto. Qed.
  Lemma enum_found : forall x tps ms tbl, In (DEnum x tps ms, tbl) l -> exists start,
    assoc x (g_enums E) = Some (map snd tbl, seq (2 + start) (List.length ms)) /\
    forall tag m, nth_error ms tag = Some m -> nth_error (st_funs s) (start + tag) = Some (cons_sig x tbl tag m).
  Proof.
    intros x tps ms tbl I. assert (I' : In (x, (tbl, ms)) (enums_of l)) by (apply enums_in; eauto).
    destruct (forall2_in _ _ _ _ (i_enums _ _ _ (m_inv _ _ _ _ _ _ M)) I') as ([y [tbl' ns]] & J & R1 & R2 & start & R3 & R4). cbn [fst snd] in *; subst.
    exists start; split; auto. rewrite g_enums_eq. apply in_assoc.
    - rewrite map_map. change (NoDup (map fst (st_enums s))). rewrite enum_names. apply enums_nodup. apply names_nodup.
    - apply in_map_iff. exists (y, (tbl', seq (2 + start) (List.length ms))). auto.
  Qed.
  Lemma enum_of_found : forall x ps ns, assoc x (g_enums E) = Some (ps, ns) ->
    exists tps ms tbl, In (DEnum x tps ms, tbl) l /\ ps = map snd tbl.
  Proof.
    intros x ps ns H. rewrite g_enums_eq in H. apply assoc_in in H. apply in_map_iff in H as ([y [tbl ns']] & Q & I). cbn [fst snd] in Q. injection Q as -> <- ->.
    destruct (forall2_in' _ _ _ _ (i_enums _ _ _ (m_inv _ _ _ _ _ _ M)) I) as ([z [tbl' ms]] & J & R1 & R2 & _). cbn [fst snd] in *; subst.
    apply enums_in in J as (tps & J). eauto.
  Qed.

  Lemma root_types : forall x t b, types_of root x = Some (b, t) -> 
    (exists d tbl, In (d, tbl) l /\ x = decl_name d /\ t = decl_type d tbl) \/ In (x, (b, t)) [("string", (true, TString)); ("int", (true, TInt)); ("bool", (true, TBool));
      ("pointer", (true, TPointer)); ("nothing", (true, TNothing)); ("bytes", (true, TBytes)); ("[]string", (false, TArr TString)); ("[]int", (false, TArr TInt));
      ("[]T", (false, TArr (TParam 0)))].
  Proof.
    intros x t b H. unfold root in H. rewrite (i_types _ _ _ (m_inv _ _ _ _ _ _ M)) in H. unfold types_of in H.
    destruct (assoc x root1) as [[o fs]|] eqn:A; [|discriminate]. cbn in H; subst o. rewrite (m_root1 _ _ _ _ _ _ M), assoc_app in A.
    destruct (assoc x (rev (map type_entry l))) as [r|] eqn:R.
    - injection A as ->. left. apply assoc_in in R. rewrite <- in_rev in R. apply in_map_iff in R as ([d tbl] & Q & I). unfold type_entry in Q; cbn [fst snd] in Q.
      injection Q as Q1 _ Q2 _. exists d, tbl; auto.
    - right. apply assoc_in in A. cbn in A. decompose [or] A; try contradiction;
        match goal with K : (_, _) = (_, _) |- _ => inversion K; subst; cbn; tauto end.
  Qed.

  Lemma env_good : env_ok E root.
  Proof.
    split; [intros x t N; split|split].
    - intros H. destruct (root_types _ _ _ H) as [(d & tbl & I & -> & ->)|K].
      + right. destruct d as [x tps fs|x tps ms|x tps ps r b]; cbn [decl_name decl_type] in *.
        * left. rewrite (struct_found _ _ _ _ I). eauto.
        * right. destruct (enum_found _ _ _ _ I) as (start & A & _). rewrite A. eauto.
        * exfalso. exact (N _ _ eq_refl).
      + left. cbn in K. unfold built_in. decompose [or] K; try contradiction; match goal with K : (_, _) = (_, _) |- _ => inversion K; subst; cbn; tauto end.
    - intros [B|[(ps & fs & A & ->)|(ps & ms & A & ->)]].
      + unfold root. rewrite (i_types _ _ _ (m_inv _ _ _ _ _ _ M)). unfold types_of.
        rewrite (in_assoc _ _ (Rsym (Some (true, t)) []) (m_nodup _ _ _ _ _ _ M)); auto.
        rewrite (m_root1 _ _ _ _ _ _ M). apply in_or_app; right. cbn in B. decompose [or] B; try contradiction;
          match goal with K : (_, _) = (_, _) |- _ => inversion K; subst; cbn; tauto end.
      + destruct (struct_of_found _ _ _ A) as (tps & fs0 & tbl & I & -> & ->). exact (entry_in _ _ I).
      + destruct (enum_of_found _ _ _ A) as (tps & ms0 & tbl & I & ->). exact (entry_in _ _ I).
    - intros x ps fs A. destruct (struct_of_found _ _ _ A) as (tps & fs0 & tbl & I & -> & ->). apply (l_numbered _ _ I).
    - intros x ps ms A. destruct (enum_of_found _ _ _ A) as (tps & ms0 & tbl & I & ->). apply (l_numbered _ _ I).
  Qed.

  Lemma fun_at : forall k sig, nth_error (st_funs s) k = Some sig -> nth_error (p_funs P) (2 + k) = Some (snd (inst_fun root sig)).
  Proof.
    intros k sig K. rewrite (m_funs _ _ _ _ _ _ M), <- app_assoc. cbn [std_funs app Nat.add nth_error]. apply nth_error_app_some. rewrite nth_error_map, K. reflexivity.
  Qed.
  Lemma cons_at : forall i d, nth_error (structs_of l) i = Some d ->
    nth_error (p_funs P) (2 + List.length (st_funs s) + i) = Some (cons_def (snd (inst_struct root d))).
  Proof.
    intros i d K. rewrite (m_funs _ _ _ _ _ _ M), <- app_assoc. cbn [std_funs app Nat.add nth_error]. rewrite nth_error_app2; rewrite map_length; [|lia].
    replace (List.length (st_funs s) + i - List.length (st_funs s)) with i by lia. rewrite !nth_error_map, (i_structs _ _ _ (m_inv _ _ _ _ _ _ M)), K. reflexivity.
  Qed.
  Lemma fun_inv : forall f d, nth_error (p_funs P) f = Some d ->
    In d std_funs \/ (exists k sig, f = 2 + k /\ nth_error (st_funs s) k = Some sig /\ d = snd (inst_fun root sig)) \/
    (exists i x tps fs tbl, nth_error (structs_of l) i = Some (x, (tbl, fs)) /\ In (DStruct x tps fs, tbl) l /\ f = 2 + List.length (st_funs s) + i /\ d = cons_def (snd (inst_struct root (x, (tbl, fs))))).
  Proof.
    intros f d H. pose proof H as H0. rewrite (m_funs _ _ _ _ _ _ M), <- app_assoc in H. destruct f as [|[|k]].
    1,2: cbn in H; injection H as <-; left; cbn; auto.
    right. cbn [std_funs app nth_error] in H. destruct (Nat.lt_ge_cases k (List.length (st_funs s))) as [L|L].
    - left. rewrite nth_error_app1 in H by (rewrite map_length; auto). rewrite nth_error_map in H. destruct (nth_error (st_funs s) k) as [sig|] eqn:K; [|discriminate].
      exists k, sig. repeat split; auto. cbn in H. injection H as <-; auto.
    - right. rewrite nth_error_app2 in H by (rewrite map_length; auto). rewrite map_length, !nth_error_map, (i_structs _ _ _ (m_inv _ _ _ _ _ _ M)) in H.
      destruct (nth_error (structs_of l) (k - List.length (st_funs s))) as [[x [tbl fs]]|] eqn:K; [|discriminate]. cbn [option_map] in H. injection H as <-.
      pose proof (nth_error_In _ _ K) as I. apply structs_in in I as (tps & I). exists (k - List.length (st_funs s)), x, tps, fs, tbl. repeat split; auto. lia.
  Qed.
  Lemma funs_length : List.length (p_funs P) = 2 + List.length (st_funs s) + List.length (structs_of l).
  Proof. rewrite (m_funs _ _ _ _ _ _ M), !app_length, !map_length, (i_structs _ _ _ (m_inv _ _ _ _ _ _ M)). reflexivity. Qed.

  Lemma g_names_at : forall x, assoc x (g_names E) = option_map (root_entry (p_funs P)) (assoc x root').
  Proof. intros x. unfold E. rewrite (m_env _ _ _ _ _ _ M). cbn [g_names]. apply assoc_map. Qed.

  Lemma named : forall k sig, nth_error (st_funs s) k = Some sig -> called P (s_name sig) (2 + k).
  Proof.
    intros k sig K. destruct (proj2 (i_named _ _ _ (m_inv _ _ _ _ _ _ M)) _ _ K) as (r & R & I).
    apply (m_keep _ _ _ _ _ _ M) in R. pose proof (fun_at _ _ K) as F.
    assert (J : In (2 + k, fun_ty (p_funs P) (2 + k)) (map (fun f => (f, fun_ty (p_funs P) f)) (r_funs r))) by (apply in_map_iff; exists (2 + k); auto).
    assert (C : exists chain, root_entry (p_funs P) r = GFuns chain /\ In (2 + k, fun_ty (p_funs P) (2 + k)) chain).
    { unfold root_entry. destruct (r_type r) as [[? ?]|].
      - destruct (map (fun f => (f, fun_ty (p_funs P) f)) (r_funs r)) as [|c cs]; [contradiction|]. eexists; split; [reflexivity|]. right; auto.
      - eauto. }
    destruct C as (chain & C & D). exists chain, (fun_ty (p_funs P) (2 + k)). repeat split; auto.
    - fold E. rewrite g_names_at, R. cbn. rewrite C. reflexivity.
    - eexists; split; [exact F|]. unfold fun_ty. rewrite F. reflexivity.
  Qed.

  Lemma sig_types : forall k sig, nth_error (st_funs s) k = Some sig ->
    Forall (fun p => names_ok (snd p)) (s_params sig) -> match s_ret sig with Some e => names_ok e | None => True end ->
    exists ps r, snd (inst_fun root sig) = Fdef (s_types sig) ps r (make_body (type_env (s_types sig) root) (s_body sig)) /\
      denote_all E (s_types sig) (s_params sig) ps /\ match s_ret sig with Some e => denotes E (s_types sig) e r | None => r = TNothing end.
  Proof.
    intros k sig K N1 N2. pose proof (m_sigs _ _ _ _ _ _ M) as F. rewrite Forall_forall in F. specialize (F sig (nth_error_In _ _ K)). fold root in F.
    unfold inst_fun in *. destruct (inst_all (type_env (s_types sig) root) (s_params sig)) as [e1 ps] eqn:A.
    destruct (inst_ret (type_env (s_types sig) root) (s_ret sig)) as [e2 r] eqn:B. cbn in F. apply app_eq_nil in F as [-> ->].
    exists ps, r. split; [reflexivity|]. split.
    - pose proof (inst_all_denotes E root (s_types sig) (s_params sig) env_good N1) as D. rewrite A in D. apply D; auto.
    - destruct (s_ret sig) as [e|]; cbn in B; [|injection B as <-; auto].
      destruct (instantiate (type_env (s_types sig) root) e) as [er o] eqn:I. injection B as -> <-.
      destruct (instantiate_denotes E root _ _ _ env_good N2 I) as (t & -> & D). exact D.
  Qed.

  Lemma struct_stands : forall x tps fields tbl, In (DStruct x tps fields, tbl) l -> stands P (DStruct x tps fields).
  Proof.
    intros x tps fields tbl I. exists tbl, (snd (inst_all (type_env tbl root) fields)). fold E. split; [exact (l_numbered _ _ I)|].
    split; [eapply struct_found; eauto|]. assert (J : In (x, (tbl, fields)) (structs_of l)) by (apply structs_in; eauto).
    assert (N : Forall (fun p => names_ok (snd p)) fields) by (apply (names _ (l_in _ _ I))).
    split.
    - apply inst_all_denotes; [apply env_good|auto|]. pose proof (m_structs _ _ _ _ _ _ M) as F. rewrite Forall_forall in F.
      rewrite (i_structs _ _ _ (m_inv _ _ _ _ _ _ M)) in F. apply F in J. rewrite (proj2 (proj2 (proj2 (inst_struct_name _ _)))) in J. exact J.
    - apply In_nth_error in J as (i & J). pose proof (cons_at _ _ J) as C.
      destruct (m_cons _ _ _ _ _ _ M i (x, (tbl, fields))) as (c & rest & Q & G); [rewrite (i_structs _ _ _ (m_inv _ _ _ _ _ _ M)); auto|]. cbn [fst] in Q.
      exists c, rest, (2 + List.length (st_funs s) + i). split; auto. split.
      + rewrite g_names_at, G. cbn [option_map root_entry r_type r_funs map]. unfold fun_ty. rewrite C. reflexivity.
      + rewrite C. reflexivity.
  Qed.
  Lemma enum_ret : forall x tps ms tbl r, unshadowed ds -> In (DEnum x tps ms, tbl) l -> denotes E tbl (XNamed x None) r ->
    r = TEnum 0 x (map TParam (map snd tbl)).
  Proof.
    intros x tps ms tbl r U I R. destruct (names _ (l_in _ _ I)) as [Nx _]. pose proof (entry_in _ _ I) as T. cbn in T.
    assert (Z : assoc x tbl = None). { apply assoc_none. rewrite (proj1 (l_numbered _ _ I)). exact (U _ _ _ (l_in _ _ I)). }
    pose proof (proj2 (type_env_of E root tbl env_good x Nx r) R) as Q. unfold type_env in Q. rewrite Z in Q. unfold types_of in T.
    destruct (assoc x root) as [[o ?]|]; [|discriminate]. cbn in T. subst o. congruence.
  Qed.
  Lemma enum_stands : forall x tps members tbl, unshadowed ds -> In (DEnum x tps members, tbl) l -> stands P (DEnum x tps members).
  Proof.
    intros x tps members tbl U I. destruct (enum_found _ _ _ _ I) as (start & A & B). exists tbl, (seq (2 + start) (List.length members)).
    split; [exact (l_numbered _ _ I)|]. split; [exact A|]. split; [apply seq_length|]. intros tag y params f H F.
    assert (L : tag < List.length members) by (apply nth_error_Some; congruence).
    assert (F' : f = 2 + (start + tag)). { rewrite (nth_error_nth' _ 0) in F by (rewrite seq_length; auto). rewrite seq_nth in F by auto. injection F as <-. lia. }
    subst f. specialize (B _ _ H). destruct (names _ (l_in _ _ I)) as [Nx Nm].
    destruct (sig_types _ _ B) as (ps & r & S & D & R).
    - cbn. eapply Nm. eapply nth_error_In; eauto.
    - cbn. constructor; auto.
    - exists ps. split; [exact D|]. split; [exact (named _ _ B)|]. rewrite (fun_at _ _ B), S. cbn. f_equal. f_equal.
      eapply enum_ret; eauto.
  Qed.
  Lemma fn_stands : forall x tps params ret body tbl, In (DFn x tps params ret body, tbl) l -> stands P (DFn x tps params ret body).
  Proof.
    intros x tps params ret body tbl I. destruct (i_fns _ _ _ (m_inv _ _ _ _ _ _ M) _ _ _ _ _ _ I) as (k & own & K & N).
    destruct (names _ (l_in _ _ I)) as [N1 N2]. destruct (sig_types _ _ K N1 N2) as (ps & r & S & D & R). cbn in D, R.
    exists (2 + k), own, ps, r, (type_env own root), (match body with DBlock b => BBlock (b (type_env own root)) | DExpr e => BExpr (e (type_env own root)) | DExtern => BExtern end).
    split; auto. split; auto. split; [exact (named _ _ K)|]. split; auto. split; [apply type_env_of; apply env_good|]. split; auto.
    rewrite (fun_at _ _ K), S. destruct body; reflexivity.
  Qed.
  Lemma all_stand : unshadowed ds -> Forall (stands P) ds.
  Proof.
    intros U. apply Forall_forall. intros d I. apply in_l in I as (tbl & I).
    destruct d; [eapply struct_stands|eapply enum_stands|eapply fn_stands]; eauto.
  Qed.

  Lemma nodup_disjoint : forall {A} (a b : list A) x, NoDup (a ++ b) -> In x a -> In x b -> False.
  Proof. intros A a b x N I J. induction a as [|y a IH]; [contradiction|]. cbn in N. inversion N; subst. destruct I as [->|I]; auto. apply H1. apply in_or_app; auto. Qed.
  Lemma nodup_flat : forall {A B} (f : A -> list B) (g : A -> B) (xs : list A), NoDup (map g xs) -> (forall a, f a = [] \/ f a = [g a]) -> NoDup (flat_map f xs).
  Proof.
    intros A B f g xs N F. assert (S : forall ys y, In y (flat_map f ys) -> In y (map g ys)).
    { intros ys y I. apply in_flat_map in I as (a & I & J). apply in_map_iff. exists a. destruct (F a) as [Q|Q]; rewrite Q in J; [contradiction|]. destruct J as [J|[]]; auto. }
    induction xs as [|a xs IH]; cbn in *; [constructor|]. inversion N; subst. destruct (F a) as [Q|Q]; rewrite Q; cbn; auto. constructor; auto.
  Qed.
  Lemma names_nodup' : NoDup (map decl_name ds).
  Proof. pose proof names_nodup as N. rewrite <- (m_decls _ _ _ _ _ _ M), map_map. exact N. Qed.

  Lemma none_repeated : no_repeats ds.
  Proof.
    split; [|split; [|split]].
    - apply NoDup_app_intro.
      + cbn. repeat (constructor; [cbn; intuition discriminate|]). constructor.
      + eapply nodup_flat; [exact names_nodup'|]. intros []; cbn; auto.
      + intros x B T. apply in_flat_map in T as (d & I & T). apply in_l in I as (tbl & I).
        assert (x = decl_name d) as -> by (destruct d; cbn in T; try contradiction; destruct T as [T|T]; auto; contradiction).
        pose proof (m_nodup _ _ _ _ _ _ M) as N. rewrite (m_root1 _ _ _ _ _ _ M), map_app in N. eapply nodup_disjoint; [exact N| |].
        * apply in_map_iff. exists (type_entry (d, tbl)). split; auto. rewrite <- in_rev. apply in_map; auto.
        * cbn in *. tauto.
    - apply (NoDup_map_inv (fun k => fst k ++ "(" ++ join ", " (map type_name (snd k)) ++ ")")%string).
      unfold fun_keys. rewrite flat_map_concat_map, concat_map, map_map, <- flat_map_concat_map.
      eapply nodup_flat; [exact names_nodup'|]. intros []; cbn; auto. right. rewrite map_map; auto.
    - rewrite <- (m_decls _ _ _ _ _ _ M). apply (i_members _ _ _ (m_inv _ _ _ _ _ _ M)).
    - intros d I. apply in_l in I as (tbl & I). pose proof (i_unrep _ _ _ (m_inv _ _ _ _ _ _ M)) as F. rewrite Forall_forall in F. apply F in I. exact I.
  Qed.

  (** Complete types mention their own parameters only. *)
  Lemma generic_in : forall d, In d ds -> decl_params d <> [] -> In (decl_name d) (generic_names ds) \/ match d with DFn _ _ _ _ _ => True | _ => False end.
  Proof.
    intros d I N. unfold generic_names. destruct d as [x [|a tps] fs|x [|a tps] ms|]; cbn in *; try congruence; auto; left; apply in_flat_map; eexists; split; [exact I|cbn; auto|exact I|cbn; auto].
  Qed.
  Lemma complete_mentions : forall scope e, complete (generic_names ds) (map fst scope) e -> forall t q, denotes E scope e t -> mentions q t -> In q (map snd scope).
  Proof.
    intros scope e; induction e as [n|n es IH|es IH|es r IH IHr|x IH] using texp_induct; intros C t q D Q; inversion C; subst; clear C.
    - inversion D; subst.
      + inversion Q; subst. match goal with H : assoc n scope = Some _ |- _ => apply assoc_in in H; apply in_map_iff; eexists; split; [|exact H]; auto end.
      + exfalso. cbn in H2. decompose [or] H2; try contradiction; match goal with H : (_, _) = (_, _) |- _ => inversion H; subst; inversion Q end.
      + destruct H0 as [H0|H0]; [exfalso; eapply assoc_none; eauto|]. destruct (struct_of_found _ _ _ H2) as (tps & fs0 & tbl & I & -> & _).
        destruct tps as [|a tps].
        * pose proof (proj1 (l_numbered _ _ I)) as N. cbn in N. destruct tbl; [|discriminate]. inversion Q; subst. contradiction.
        * exfalso. destruct (generic_in _ (l_in _ _ I)); [discriminate|auto|contradiction].
      + destruct H0 as [H0|H0]; [exfalso; eapply assoc_none; eauto|]. destruct (enum_of_found _ _ _ H2) as (tps & fs0 & tbl & I & ->).
        destruct tps as [|a tps].
        * pose proof (proj1 (l_numbered _ _ I)) as N. cbn in N. destruct tbl; [|discriminate]. inversion Q; subst. contradiction.
        * exfalso. destruct (generic_in _ (l_in _ _ I)); [discriminate|auto|contradiction].
    - inversion D; subst; inversion Q; subst.
      + match goal with F : Forall2 _ es ts, J : In _ ts |- _ => destruct (forall2_in' _ _ _ _ F J) as (e' & K & L) end. rewrite Forall_forall in *. eapply IH; eauto.
      + match goal with F : Forall2 _ es ts, J : In _ ts |- _ => destruct (forall2_in' _ _ _ _ F J) as (e' & K & L) end. rewrite Forall_forall in *. eapply IH; eauto.
    - inversion D; subst; inversion Q; subst.
      + match goal with F : Forall2 _ es ts, J : In _ ts |- _ => destruct (forall2_in' _ _ _ _ F J) as (e' & K & L) end. rewrite Forall_forall in *. eapply IH; eauto.
      + match goal with H : mentions _ TNothing |- _ => inversion H end.
    - inversion D; subst; inversion Q; subst.
      + match goal with F : Forall2 _ es ts, J : In _ ts |- _ => destruct (forall2_in' _ _ _ _ F J) as (e' & K & L) end. rewrite Forall_forall in *. eapply IH; eauto.
      + eapply IHr; eauto.
    - inversion D; subst; inversion Q; subst. eapply IH; eauto.
  Qed.
  Lemma complete_all_mention : forall scope ps ts, denote_all E scope ps ts -> Forall (fun p => complete (generic_names ds) (map fst scope) (snd p)) ps ->
    forall p q, In p ts -> mentions q (snd p) -> In q (map snd scope).
  Proof.
    intros scope ps ts D C p q I Q. destruct (forall2_in' _ _ _ _ D I) as (a & J & _ & K). rewrite Forall_forall in C. eapply complete_mentions; eauto.
  Qed.

  Lemma known_at : forall f, f < List.length (p_funs P) -> known P (f, fun_ty (p_funs P) f).
  Proof.
    intros f L. destruct (nth_error (p_funs P) f) as [d|] eqn:N; [|apply nth_error_None in N; lia]. exists d, f. split; auto. cbn. unfold fun_ty. rewrite N. auto.
  Qed.
  Lemma chain_known : forall x r, assoc x root' = Some r -> Forall (known P) (map (fun f => (f, fun_ty (p_funs P) f)) (r_funs r)).
  Proof.
    intros x r A. apply Forall_forall. intros e I. apply in_map_iff in I as (f & <- & I). apply known_at. rewrite funs_length.
    destruct (m_new _ _ _ _ _ _ M _ _ A) as [A'|(i & L & ->)].
    - pose proof (proj1 (i_named _ _ _ (m_inv _ _ _ _ _ _ M)) _ _ _ A' I). lia.
    - destruct I as [<-|[]]. rewrite (i_structs _ _ _ (m_inv _ _ _ _ _ _ M)) in L. lia.
  Qed.

  Lemma all_declared : unshadowed ds -> all_complete ds -> declared_ok P.
  Proof.
    intros U C. split; [|split; [|split; [|split]]].
    - intros x first more H. fold E in H. rewrite g_names_at in H. destruct (assoc x root') as [r|] eqn:A; [|discriminate]. cbn in H. injection H as H.
      pose proof (chain_known _ _ A) as K. unfold root_entry in H. destruct (r_type r) as [[b t]|] eqn:T.
      + destruct (map (fun f => (f, fun_ty (p_funs P) f)) (r_funs r)) as [|c cs]; [discriminate|]. injection H as <- <-. split; auto.
        intros F. exfalso. cbn in F. destruct (m_new _ _ _ _ _ _ M _ _ A) as [A'|(i & L & ->)]; [|discriminate].
        assert (TT : types_of root x = Some (b, t)) by (unfold types_of, root; rewrite A'; auto).
        destruct (root_types _ _ _ TT) as [(d & tbl & _ & _ & ->)|Z]; [destruct d; discriminate|].
        cbn in Z. decompose [or] Z; try contradiction; match goal with K : (_, _) = (_, _) |- _ => inversion K; subst; discriminate end.
      + injection H as H. rewrite H in K. inversion K; subst. auto.
    - intros f d H. destruct (fun_inv _ _ H) as [I|[(k & sig & -> & K & ->)|(i & x & tps & fs & tbl & _ & I & _ & ->)]].
      + cbn in I. destruct I as [<-|[<-|[]]]; constructor.
      + pose proof (i_cons _ _ _ (m_inv _ _ _ _ _ _ M) _ _ K) as J. assert (Q : f_types (snd (inst_fun root sig)) = s_types sig).
        { unfold inst_fun. destruct (inst_all _ _), (inst_ret _ _); reflexivity. }
        rewrite Q. destruct (s_body sig) as [b|x tag]; [destruct J as (? & ? & [_ J] & _); exact J|]. destruct J as (tbl & ms & st & m & J & _ & _ & _ & ->). apply enums_in in J as (tps & J). apply (l_numbered _ _ J).
      + apply (l_numbered _ _ I).
    - intros n ps fs A. exact (proj1 (proj2 env_good) _ _ _ A).
    - intros n ps ms A. split; [exact (proj2 (proj2 env_good) _ _ _ A)|]. fold E in A. destruct (enum_of_found _ _ _ A) as (tps & ms0 & tbl & I & ->).
      destruct (enum_found _ _ _ _ I) as (start & A' & B). rewrite A in A'. injection A' as ->. split; [apply seq_NoDup|]. intros tag f F.
      assert (L : tag < List.length ms0) by (destruct (Nat.lt_ge_cases tag (List.length ms0)) as [|G]; auto; exfalso;
        assert (G' : nth_error (seq (2 + start) (List.length ms0)) tag = None) by (apply nth_error_None; rewrite seq_length; auto); cbn in F, G'; congruence).
      assert (F' : f = 2 + (start + tag)). { rewrite (nth_error_nth' _ 0) in F by (rewrite seq_length; auto). rewrite seq_nth in F by auto. injection F as <-. lia. }
      subst f. destruct (nth_error ms0 tag) as [m|] eqn:Q; [|apply nth_error_None in Q; lia]. specialize (B _ _ Q).
      eexists; split; [exact (fun_at _ _ B)|]. unfold inst_fun. destruct (inst_all _ _), (inst_ret _ _); reflexivity.
    - intros f d H. destruct (fun_inv _ _ H) as [I|[(k & sig & -> & K & ->)|(i & x & tps & fs & tbl & Ni & I & -> & ->)]].
      + cbn in I. destruct I as [<-|[<-|[]]]; exact Logic.I.
      + pose proof (i_cons _ _ _ (m_inv _ _ _ _ _ _ M) _ _ K) as J. destruct (s_body sig) as [b|x tag] eqn:B.
        { unfold inst_fun. destruct (inst_all _ _), (inst_ret _ _). rewrite B. destruct b; exact Logic.I. }
        destruct J as (tbl & ms & st & [y params] & J & Je & -> & Nm & ->). apply enums_in in J as (tps & J). pose proof (l_in _ _ J) as J'.
        destruct (names _ J') as [Nx Nps].
        destruct (sig_types _ _ K) as (ps & r & S & D & R); [cbn; eapply Nps; eapply nth_error_In; eauto|cbn; constructor; auto|].
        rewrite S. cbn. exists 0, (seq (2 + st) (List.length ms)).
        assert (L' : tag < List.length ms) by (apply nth_error_Some; congruence).
        split; [|split; [|split; [eapply enum_ret; eauto|]]].
        * fold E. rewrite g_enums_eq. apply in_assoc.
          { rewrite map_map. change (NoDup (map fst (st_enums s))). rewrite enum_names. apply enums_nodup. apply names_nodup. }
          apply in_map_iff. exists (x, (tbl, seq (2 + st) (List.length ms))). auto.
        * rewrite (nth_error_nth' _ 0) by (rewrite seq_length; auto). rewrite seq_nth by auto. f_equal; lia.
        * intros p q Ip Mq. eapply complete_all_mention; [exact D| |exact Ip|exact Mq]. cbn.
          rewrite (proj1 (l_numbered _ _ J)). eapply (C _ J'). eapply nth_error_In; eauto.
      + cbn. exists 0, (snd (inst_all (type_env tbl root) fs)). split; [eapply struct_found; eauto|]. split; auto. split; auto.
        intros p q Ip Mq. eapply complete_all_mention; [|  |exact Ip|exact Mq].
        * apply inst_all_denotes; [apply env_good|apply (names _ (l_in _ _ I))|]. pose proof (m_structs _ _ _ _ _ _ M) as F. rewrite Forall_forall in F.
          rewrite (i_structs _ _ _ (m_inv _ _ _ _ _ _ M)) in F. specialize (F (x, (tbl, fs)) (nth_error_In _ _ Ni)).
          rewrite (proj2 (proj2 (proj2 (inst_struct_name _ _)))) in F. exact F.
        * rewrite (proj1 (l_numbered _ _ I)). apply (C _ (l_in _ _ I)).
  Qed.
End Accepted.

Lemma declarations_stand : forall ds P, declare_all ds = Accepted P -> all_names_ok ds -> unshadowed ds -> Forall (stands P) ds.
Proof. intros ds P E N U. destruct (made _ _ E) as (l & root1 & root' & s & M). eapply all_stand; eauto. Qed.
Lemma declared_once : forall ds P, declare_all ds = Accepted P -> no_repeats ds.
Proof. intros ds P E. destruct (made _ _ E) as (l & root1 & root' & s & M). eapply none_repeated; eauto. Qed.
Lemma declared_well : forall ds P, declare_all ds = Accepted P -> all_names_ok ds -> unshadowed ds -> all_complete ds -> declared_ok P.
Proof. intros ds P E N U C. destruct (made _ _ E) as (l & root1 & root' & s & M). eapply all_declared; eauto. Qed.

Lemma refused_why : forall ds l, declare_all ds = Errors l -> l <> [].
Proof.
  intros ds l E; unfold declare_all in E. destruct (pass1 1 std ds) as [[[e1 l1] next] root1]. destruct e1; [|injection E as <-; discriminate].
  destruct (st_errs _) ; [|injection E as <-; discriminate]. destruct (_ ++ _); [|injection E as <-; discriminate].
  destruct (add_constructors _ _ _ _) as [[[[|] ?] ?]|]; try discriminate. injection E as <-; discriminate.
Qed.
