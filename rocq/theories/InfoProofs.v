(** The type information table has, at every id, the description of the type the id was
    given to. *)
From Coq Require Import ZArith List Bool String Lia.
From Verif Require Import GenModel GcModel InfoModel.
Import ListNotations.
Open Scope Z_scope.
Ltac Zify.zify_post_hook ::= Z.div_mod_to_equations.

(** Kinds of values kept on the heap. *)
Definition heap_kind (k : kind) : Prop := k <> TInteger /\ k <> TBoolean /\ k <> TNothing /\ k <> TPointer.
(** An object made by a constructor: the tag, if the type is an enum, then the parameters.  Its
    description lists the words that hold heap values. *)
Definition describes (tag : option Z) (params : list ty) (info : type_info) : Prop :=
  exists roots, info = StructType roots /\
    forall r, In r roots <-> exists i t, nth_error params i = Some t /\ heap_kind (ty_kind t) /\
      r = Z.of_nat i + match tag with Some _ => 1 | None => 0 end.
(** The words of such an object. *)
Definition object_words (tag : option Z) (params : list ty) : Z :=
  Z.of_nat (List.length params) + match tag with Some _ => 1 | None => 0 end.

Lemma is_pointer_kind t : is_pointer t = true <-> heap_kind (ty_kind t).
Proof. unfold heap_kind, is_pointer. destruct (ty_kind t); split; intros H; try reflexivity; try discriminate H; try (repeat split; discriminate); destruct H as [A [B [C D]]]; congruence. Qed.

Lemma numbered_nth {A} (l : list A) : forall i k x, In (k, x) (numbered i l) <-> exists n, nth_error l n = Some x /\ k = i + Z.of_nat n.
Proof.
  induction l as [|y l IH]; intros i k x; cbn.
  - split; [intros []|intros [n [E _]]; destruct n; discriminate].
  - rewrite IH. split.
    + intros [E|[n [E ->]]]; [inversion E; subst; exists 0%nat; split; [reflexivity|lia]|exists (S n); split; [exact E|lia]].
    + intros [[|n] [E ->]]; [left; inversion E; subst; f_equal; lia|right; exists n; split; [exact E|lia]].
Qed.
Lemma numbered_length {A} (l : list A) : forall i, List.length (numbered i l) = List.length l.
Proof. induction l; intros; cbn; [|rewrite IHl]; reflexivity. Qed.
Lemma numbered_app {A} (l m : list A) : forall i, numbered i (l ++ m) = numbered i l ++ numbered (i + Z.of_nat (List.length l)) m.
Proof.
  induction l as [|x l IH]; intros i; cbn [List.app numbered List.length]; [f_equal; lia|].
  rewrite IH. do 3 f_equal. lia.
Qed.

Definition cons_of (n : node) : list (option Z * list ty * gc_type) := match n with NCons tag ps r => [(tag, ps, r)] | _ => [] end.
Definition conss (nodes : list node) := flat_map cons_of nodes.
Definition ret (c : option Z * list ty * gc_type) : gc_type := snd c.

Lemma assign_types : forall nodes types, fst (assign nodes types) = types ++ map ret (conss nodes).
Proof.
  induction nodes as [|n nodes IH]; intros types; cbn; [rewrite app_nil_r; reflexivity|].
  destruct n; cbn; [apply IH|apply IH|]. specialize (IH (types ++ [ret0])). destruct (assign nodes (types ++ [ret0])) as [a b].
  cbn in *. rewrite IH, <- app_assoc. reflexivity.
Qed.
Lemma assign_ids : forall nodes types, snd (assign nodes types) =
  map (fun c => (fst (fst (snd c)), snd (fst (snd c)), fst c)) (numbered (Z.of_nat (List.length types)) (conss nodes)).
Proof.
  induction nodes as [|n nodes IH]; intros types; cbn; [reflexivity|].
  destruct n; cbn; [apply IH|apply IH|]. specialize (IH (types ++ [ret0])). destruct (assign nodes (types ++ [ret0])) as [a b].
  cbn in *. rewrite IH, app_length. cbn [List.length]. do 4 f_equal. lia.
Qed.

(** The map a constructor's type is to have. *)
Definition expected (c : option Z * list ty * gc_type) : list Z :=
  match c with
  | (Some _, params, _) => param_offsets params
  | (None, params, _) => map (fun f => fst f) (filter (fun f => is_pointer (snd f)) (numbered 0 params))
  end.

Lemma struct_offsets : forall fields i, field_offsets (map (fun f : Z * ty => (8 * fst f, snd f)) (numbered i fields)) =
  map (fun f => fst f) (filter (fun f => is_pointer (snd f)) (numbered i fields)).
Proof.
  unfold field_offsets. induction fields as [|f fields IH]; intros i; cbn [numbered map filter snd fst]; [reflexivity|].
  destruct (is_pointer f); cbn [map fst]; rewrite IH; [f_equal; lia|reflexivity].
Qed.

Lemma structs_maps : forall cs, Forall (fun c => exists fields, c = (None, fields, struct_type fields)) cs ->
  forall tag et, root_maps tag et (map ret cs) = Some (map expected cs).
Proof.
  induction 1 as [|c cs [fields ->] F IH]; intros tag et; [reflexivity|]. cbn [map ret snd root_maps struct_type expected].
  unfold struct_type. rewrite struct_offsets. destruct (map (fun f : Z * ty => fst f) _); rewrite IH; reflexivity.
Qed.

Lemma block_maps who : forall (suffix prefix : list (list ty)) rest,
  root_maps (List.length prefix) (Some who) (map (fun _ => enum_type who (prefix ++ suffix)) suffix ++ rest) =
  option_map (app (map param_offsets suffix)) (root_maps (List.length (prefix ++ suffix)) (Some who) rest).
Proof.
  induction suffix as [|m suffix IH]; intros prefix rest; cbn [map List.app].
  - rewrite app_nil_r. destruct (root_maps _ _ rest); reflexivity.
  - cbn [root_maps].
    assert (E : nth_error (numbered 0 (prefix ++ m :: suffix)) (List.length prefix) = Some (Z.of_nat (List.length prefix), m)).
    { rewrite numbered_app, nth_error_app2, numbered_length, Nat.sub_diag by (rewrite numbered_length; lia). reflexivity. }
    unfold enum_type at 1. cbv beta iota zeta. rewrite Nat.eqb_refl, E, Z.eqb_refl. cbn [negb].
    specialize (IH (prefix ++ [m]) rest). rewrite <- app_assoc in IH. cbn [List.app] in IH.
    rewrite app_length in IH. cbn [List.length] in IH. replace (List.length prefix + 1)%nat with (S (List.length prefix)) in IH by lia.
    rewrite IH. destruct (root_maps _ _ rest); reflexivity.
Qed.
Lemma enum_maps who ms tag et rest : et <> Some who ->
  exists tag' et', (et' = et \/ et' = Some who) /\
  root_maps tag et (map (fun _ => enum_type who ms) ms ++ rest) = option_map (app (map param_offsets ms)) (root_maps tag' et' rest).
Proof.
  intros Ne. destruct ms as [|m ms].
  - exists tag, et. split; [auto|]. cbn. destruct (root_maps _ _ rest); reflexivity.
  - exists (List.length (m :: ms)), (Some who). split; [auto|].
    pose proof (block_maps who (m :: ms) [] rest) as E. cbn [List.app List.length] in E. cbn [List.length]. rewrite <- E. clear E. cbn [map List.app root_maps List.length].
    unfold enum_type. cbv beta iota zeta. rewrite Nat.eqb_refl. destruct et as [e|]; [|reflexivity]. destruct (Nat.eqb_spec who e); [congruence|reflexivity].
Qed.

(** The enums' constructors. *)
Fixpoint enum_conss (who : nat) (prog : list top) : list (option Z * list ty * gc_type) :=
  match prog with
  | [] => []
  | DEnum name ps ms :: prog => conss (enum_nodes who name ps ms) ++ enum_conss (S who) prog
  | _ :: prog => enum_conss (S who) prog
  end.
Lemma enums_from_conss : forall prog who root, conss (enums_from who prog root) = conss root ++ enum_conss who prog.
Proof.
  induction prog as [|d prog IH]; intros who root; cbn [enums_from enum_conss]; [rewrite app_nil_r; reflexivity|].
  destruct d; rewrite IH; [|reflexivity|reflexivity]. unfold conss. rewrite flat_map_app, <- app_assoc. reflexivity.
Qed.
Lemma start_conss prog : conss (map start_node prog) = [].
Proof. induction prog as [|[] prog IH]; cbn; auto. Qed.

Lemma enum_block who name ps ms : conss (enum_nodes who name ps ms) =
  map (fun m => (Some (fst m), snd m, result_type name ps (enum_type who ms))) (numbered 0 ms).
Proof. unfold conss, enum_nodes. generalize (result_type name ps (enum_type who ms)) as t. intros t. induction (numbered 0 ms) as [|x l IH]; cbn; [reflexivity|]. rewrite IH. reflexivity. Qed.

Definition shadowed (d : top) : bool :=
  match d with DEnum name ps (_ :: _) => existsb (String.eqb name) ps | _ => false end.

Lemma other_maps : forall types tag et, In GOther types -> root_maps tag et types = None.
Proof.
  induction types as [|t types IH]; intros tag et; [intros []|]. intros [->|I]; [reflexivity|].
  destruct t; cbn; rewrite ?IH by exact I; try reflexivity.
  - destruct (field_offsets fields); rewrite ?IH by exact I; reflexivity.
  - destruct (nth_error members _) as [[a b]|]; [|reflexivity]. destruct (negb _); [reflexivity|]. rewrite ?IH by exact I. reflexivity.
Qed.

Lemma enums_maps : forall prog who, Forall (fun d => shadowed d = false) prog -> forall rest m,
  (forall tag et, root_maps tag et rest = Some m) ->
  forall tag et, (forall e, et = Some e -> (e < who)%nat) ->
  root_maps tag et (map ret (enum_conss who prog) ++ rest) = Some (map expected (enum_conss who prog) ++ m).
Proof.
  induction prog as [|d prog IH]; intros who F rest m R tag et B; inversion F as [|? ? Fd Fp]; subst; [apply R|].
  destruct d as [name ps ms|fields|ext ls]; cbn [enum_conss].
  - assert (Er : map ret (conss (enum_nodes who name ps ms)) = map (fun _ => enum_type who ms) ms).
    { rewrite enum_block, map_map. cbn [ret snd]. destruct ms as [|m0 ms]; [reflexivity|]. cbn in Fd. unfold result_type. rewrite Fd.
      generalize (enum_type who (m0 :: ms)). intros t. generalize (m0 :: ms), 0. induction l as [|x l IHl]; intros z; cbn; [reflexivity|]. rewrite IHl. reflexivity. }
    assert (Ee : map expected (conss (enum_nodes who name ps ms)) = map param_offsets ms).
    { rewrite enum_block, map_map. cbn [expected]. clear. generalize 0. induction ms as [|x l IHl]; intros z; cbn; [reflexivity|]. rewrite IHl. reflexivity. }
    rewrite !map_app, Er, Ee, <- !app_assoc.
    destruct (enum_maps who ms tag et (map ret (enum_conss (S who) prog) ++ rest)) as [tag' [et' [Het ->]]].
    { intros E. specialize (B who E). lia. }
    rewrite (IH (S who) Fp rest m R tag' et'); [reflexivity|]. intros e ->. destruct Het as [E|E]; [symmetry in E; specialize (B e E); lia|inversion E; lia].
  - apply (IH (S who) Fp rest m R). intros e E. specialize (B e E). lia.
  - apply (IH (S who) Fp rest m R). intros e E. specialize (B e E). lia.
Qed.

Lemma shadow_conss : forall prog who, existsb shadowed prog = true -> In GOther (map ret (enum_conss who prog)).
Proof.
  induction prog as [|d prog IH]; intros who; cbn; [discriminate|]. intros E. apply orb_true_iff in E as [E|E].
  - destruct d as [name ps [|m ms]|fields|ext ls]; cbn [shadowed] in E; try discriminate. rewrite map_app. apply in_or_app. left.
    rewrite enum_block, map_map. cbn. left. unfold result_type. rewrite E. reflexivity.
  - destruct d; [rewrite map_app; apply in_or_app; right|..]; apply IH, E.
Qed.

Definition struct_conss (prog : list top) := conss (structs_of prog ++ locals_of prog).
Lemma struct_conss_shape prog : Forall (fun c => exists fields, c = (None, fields, struct_type fields)) (struct_conss prog).
Proof.
  unfold struct_conss, conss. rewrite flat_map_app. apply Forall_app. split; unfold structs_of, locals_of.
  - induction prog as [|[] prog IH]; cbn; try exact IH; [constructor|]. constructor; [eexists; reflexivity|exact IH].
  - induction prog as [|[] prog IH]; cbn; try exact IH; [constructor|]. rewrite flat_map_app. apply Forall_app. split; [|exact IH].
    clear. induction locals as [|[] ls IH]; cbn; [constructor|exact IH|]. constructor; [eexists; reflexivity|]. constructor; [eexists; reflexivity|exact IH].
Qed.
Lemma root_conss prog : conss (root_nodes prog) = enum_conss 0 prog ++ struct_conss prog.
Proof. unfold root_nodes, struct_conss, conss at 1. rewrite flat_map_app. fold (conss (enums_from 0 prog (map start_node prog))). rewrite enums_from_conss, start_conss. reflexivity. Qed.

Lemma infos_map types : forall roots, List.length types = List.length roots -> infos types roots = map (fun p => info_of (fst p) (snd p)) (combine types roots).
Proof. induction types as [|t types IH]; intros [|r roots] L; cbn; try discriminate; [reflexivity|]. rewrite IH by (cbn in L; lia). reflexivity. Qed.

(** The table, in one piece. *)
Definition builtin_infos : list type_info :=
  [StructType []; BytesType; ArrayType false; ArrayType true; StringType; FunctionType; BytesType; ArrayType true].
Lemma cons_infos : forall cs, Forall (fun c => match snd c with GStruct _ | GEnum _ _ => True | _ => False end) cs ->
  infos (map ret cs) (map expected cs) = map (fun c => StructType (expected c)) cs.
Proof. induction 1 as [|c cs F H IH]; cbn; [reflexivity|]. rewrite IH. f_equal. unfold ret. destruct (snd c); try contradiction; reflexivity. Qed.
Lemma enum_conss_shape : forall prog who, Forall (fun d => shadowed d = false) prog ->
  Forall (fun c => match snd c with GStruct _ | GEnum _ _ => True | _ => False end) (enum_conss who prog).
Proof.
  induction prog as [|d prog IH]; intros who F; inversion F; subst; cbn; [constructor|].
  destruct d as [name ps ms|fields|ext ls]; [|apply IH; assumption..]. apply Forall_app. split; [|apply IH; assumption].
  rewrite enum_block. destruct ms as [|m ms]; [constructor|]. cbn in *. unfold result_type.
  rewrite H1. apply Forall_forall. intros c Hc. apply in_map_iff in Hc as [x [<- _]] || (destruct Hc as [<-|Hc]; [exact I|apply in_map_iff in Hc as [x [<- _]]]); exact I.
Qed.
Lemma table_is prog : existsb shadowed prog = false -> table_of prog = Some (builtin_infos ++ map (fun c => StructType (expected c)) (conss (root_nodes prog))).
Proof.
  intros Ns. assert (F : Forall (fun d => shadowed d = false) prog).
  { apply Forall_forall. intros d Hd. destruct (shadowed d) eqn:E; [|reflexivity]. exfalso.
    assert (T : existsb shadowed prog = true) by (apply existsb_exists; exists d; auto). congruence. }
  unfold table_of, type_info_table. rewrite assign_types, root_conss.
  assert (E : root_maps 0 None (builtins ++ map ret (enum_conss 0 prog ++ struct_conss prog)) =
    Some (map (fun _ => []) builtins ++ map expected (enum_conss 0 prog ++ struct_conss prog))).
  { rewrite !map_app. cbn [builtins List.app root_maps map]. change (field_offsets []) with (@nil Z). cbv beta iota.
    rewrite (enums_maps prog 0 F (map ret (struct_conss prog)) (map expected (struct_conss prog))); [reflexivity| |discriminate].
    intros. apply structs_maps, struct_conss_shape. }
  rewrite E. cbn [option_map]. f_equal. cbn [builtins List.app map infos]. unfold builtin_infos. cbn [List.app info_of is_pointer ty_kind].
  do 8 f_equal. apply cons_infos. apply Forall_app. split; [apply enum_conss_shape, F|].
  eapply Forall_impl; [|apply struct_conss_shape]. intros c [fields ->]. exact I.
Qed.
Lemma table_none prog : existsb shadowed prog = true -> table_of prog = None.
Proof.
  intros Ns. unfold table_of, type_info_table. rewrite assign_types, root_conss, other_maps; [reflexivity|].
  apply in_or_app. right. rewrite map_app. apply in_or_app. left. apply shadow_conss, Ns.
Qed.

Lemma expected_describes c : describes (fst (fst c)) (snd (fst c)) (StructType (expected c)).
Proof.
  exists (expected c). split; [reflexivity|]. intros r. destruct c as [[tag params] t]. cbn [fst snd].
  destruct tag as [z|]; cbn [expected]; unfold param_offsets; rewrite in_map_iff; split.
  - intros [[k x] [<- H]]. apply filter_In in H as [H P]. cbn [fst snd] in *. apply numbered_nth in H as [n [E ->]].
    exists n, x. split; [exact E|]. split; [apply is_pointer_kind, P|lia].
  - intros [i [x [E [K ->]]]]. exists (Z.of_nat i, x). split; [reflexivity|]. apply filter_In. split; [apply numbered_nth; exists i; split; [exact E|lia]|apply is_pointer_kind, K].
  - intros [[k x] [<- H]]. apply filter_In in H as [H P]. cbn [fst snd] in *. apply numbered_nth in H as [n [E ->]].
    exists n, x. split; [exact E|]. split; [apply is_pointer_kind, P|lia].
  - intros [i [x [E [K ->]]]]. exists (Z.of_nat i, x). split; [cbn; lia|]. apply filter_In. split; [apply numbered_nth; exists i; split; [exact E|lia]|apply is_pointer_kind, K].
Qed.

Lemma ids_are prog : constructor_ids prog = map (fun c => (fst (fst (snd c)), snd (fst (snd c)), fst c)) (numbered 8 (conss (root_nodes prog))).
Proof. unfold constructor_ids. rewrite assign_ids. reflexivity. Qed.

Lemma entry prog table tag params id : table_of prog = Some table -> In (tag, params, id) (constructor_ids prog) ->
  8 <= id /\ exists info, nth_error table (Z.to_nat id) = Some info /\ describes tag params info.
Proof.
  intros T I. destruct (existsb shadowed prog) eqn:S; [rewrite table_none in T by exact S; discriminate|].
  rewrite (table_is prog S) in T. apply (f_equal (fun o => match o with Some t => t | None => [] end)) in T. cbv beta iota in T. subst table. rewrite ids_are in I.
  apply in_map_iff in I as [[k c] [E Hc]]. apply numbered_nth in Hc as [n [Hn ->]]. cbn [fst snd] in E.
  assert (tag = fst (fst c) /\ params = snd (fst c) /\ id = 8 + Z.of_nat n) as [-> [-> ->]] by (split; [|split]; congruence). split; [lia|].
  exists (StructType (expected c)). split; [|apply expected_describes].
  rewrite nth_error_app2 by (change (List.length builtin_infos) with 8%nat; lia). replace (Z.to_nat (8 + Z.of_nat n) - List.length builtin_infos)%nat with n by (cbn [builtin_infos List.length]; lia).
  rewrite nth_error_map, Hn. reflexivity.
Qed.

(** What is allocated: every member of every enum, every struct, and what closures need. *)
Definition declared (prog : list top) (tag : option Z) (params : list ty) : Prop :=
  (exists name ps ms n, In (DEnum name ps ms) prog /\ nth_error ms n = Some params /\ tag = Some (Z.of_nat n)) \/
  (tag = None /\ In (DStruct params) prog) \/
  (tag = None /\ exists ext ls fn env free, In (DFn ext ls) prog /\ In (ClosureFn fn env free) ls /\ (params = free \/ params = [fn; env])).

Lemma in_enum_conss : forall prog who tag params, (exists t, In (tag, params, t) (enum_conss who prog)) <->
  exists name ps ms n, In (DEnum name ps ms) prog /\ nth_error ms n = Some params /\ tag = Some (Z.of_nat n).
Proof.
  induction prog as [|d prog IH]; intros who tag params; cbn [enum_conss].
  - split; [intros [t []]|intros [name [ps [ms [n [[] _]]]]]].
  - assert (Rest : (exists t, In (tag, params, t) (enum_conss (S who) prog)) <->
      exists name ps ms n, In (DEnum name ps ms) prog /\ nth_error ms n = Some params /\ tag = Some (Z.of_nat n)) by apply IH.
    assert (Skip : (forall name ps ms, d <> DEnum name ps ms) -> (exists t, In (tag, params, t) (enum_conss (S who) prog)) <->
      exists name ps ms n, In (DEnum name ps ms) (d :: prog) /\ nth_error ms n = Some params /\ tag = Some (Z.of_nat n)).
    { intros Nd. rewrite Rest. split; intros [name [ps [ms [n [H1 H2]]]]]; exists name, ps, ms, n; split; try exact H2; [right; exact H1|].
      destruct H1 as [->|H1]; [exfalso; eapply Nd; reflexivity|exact H1]. }
    destruct d as [name ps ms|fields|ext ls]; [|apply Skip; discriminate..]. clear Skip. split.
    + intros [t H]. apply in_app_or in H as [H|H].
      * rewrite enum_block in H. apply in_map_iff in H as [[k x] [E H]]. inversion E; subst. apply numbered_nth in H as [n [E1 ->]].
        exists name, ps, ms, n. split; [left; reflexivity|]. split; [exact E1|]. reflexivity.
      * destruct Rest as [Rest _]. destruct (Rest (ex_intro _ t H)) as [a [b [c [n [H1 H2]]]]]. exists a, b, c, n. split; [right; exact H1|exact H2].
    + intros [name' [ps' [ms' [n [[H1|H1] [H2 ->]]]]]].
      * inversion H1; subst. eexists. apply in_or_app. left. rewrite enum_block. apply in_map_iff. exists (Z.of_nat n, params). split; [reflexivity|].
        apply numbered_nth. exists n. split; [exact H2|lia].
      * destruct Rest as [_ Rest]. destruct Rest as [t Ht]; [exists name', ps', ms', n; auto|]. exists t. apply in_or_app. right. exact Ht.
Qed.
Lemma in_struct_conss prog tag params : (exists t, In (tag, params, t) (struct_conss prog)) <->
  (tag = None /\ In (DStruct params) prog) \/
  (tag = None /\ exists ext ls fn env free, In (DFn ext ls) prog /\ In (ClosureFn fn env free) ls /\ (params = free \/ params = [fn; env])).
Proof.
  unfold struct_conss, conss. split.
  - intros [t H]. rewrite flat_map_app in H. apply in_app_or in H as [H|H]; apply in_flat_map in H as [nd [H1 H2]].
    + left. apply in_flat_map in H1 as [d [Hd H1]]. destruct d; try contradiction. destruct H1 as [<-|[]]. destruct H2 as [E|[]]. inversion E; subst. auto.
    + right. apply in_flat_map in H1 as [d [Hd H1]]. destruct d as [| |ext ls]; try contradiction. apply in_flat_map in H1 as [l [Hl H1]].
      destruct l as [|fn env free]; cbn in H1; [destruct H1 as [<-|[]]; destruct H2|].
      destruct H1 as [<-|[<-|[<-|[<-|[<-|[]]]]]]; cbn in H2; try contradiction; destruct H2 as [E|[]]; inversion E; subst; (split; [reflexivity|]);
        exists ext, ls, fn, env; eexists; (split; [exact Hd|]); (split; [exact Hl|auto]).
  - rewrite flat_map_app. intros [[-> H]|[-> [ext [ls [fn [env [free [H1 [H2 H3]]]]]]]]].
    + exists (struct_type params). apply in_or_app. left. apply in_flat_map. exists (struct_node params). split; [|left; reflexivity].
      apply in_flat_map. exists (DStruct params). split; [exact H|left; reflexivity].
    + exists (struct_type params). apply in_or_app. right. apply in_flat_map. exists (struct_node params). split; [|left; reflexivity].
      apply in_flat_map. exists (DFn ext ls). split; [exact H1|]. apply in_flat_map. exists (ClosureFn fn env free). split; [exact H2|].
      cbn. destruct H3 as [-> | ->]; auto.
Qed.
Lemma in_ids prog tag params : (exists id, In (tag, params, id) (constructor_ids prog)) <-> declared prog tag params.
Proof.
  rewrite ids_are, root_conss. unfold declared. rewrite <- (in_enum_conss prog 0), <- in_struct_conss. split.
  - intros [id H]. apply in_map_iff in H as [[k [[a b] t]] [E H]]. cbn in E. inversion E; subst. apply numbered_nth in H as [n [H _]].
    apply nth_error_In, in_app_or in H as [H|H]; [left|right]; exists t; exact H.
  - assert (G : (exists t, In (tag, params, t) (enum_conss 0 prog ++ struct_conss prog)) -> exists id, In (tag, params, id)
      (map (fun c : Z * (option Z * list ty * gc_type) => (fst (fst (snd c)), snd (fst (snd c)), fst c)) (numbered 8 (enum_conss 0 prog ++ struct_conss prog)))).
    { intros [t H]. apply In_nth_error in H as [n H]. exists (8 + Z.of_nat n). apply in_map_iff. exists (8 + Z.of_nat n, (tag, params, t)). split; [reflexivity|].
      apply numbered_nth. exists n. auto. }
    intros [[t H]|[t H]]; apply G; exists t; apply in_or_app; auto.
Qed.
Lemma numbered_fst_nodup {A} (l : list A) : forall i, NoDup (map fst (numbered i l)).
Proof.
  induction l as [|x l IH]; intros i; cbn; constructor; [|apply IH]. intros H. apply in_map_iff in H as [[k y] [E H]].
  apply numbered_nth in H as [n [_ ->]]. cbn in E. lia.
Qed.
Lemma ids_nodup prog : NoDup (map snd (constructor_ids prog)).
Proof. rewrite ids_are, map_map. cbn. exact (numbered_fst_nodup _ 8). Qed.
Lemma table_length prog table : table_of prog = Some table -> List.length table = (8 + List.length (constructor_ids prog))%nat.
Proof.
  intros T. destruct (existsb shadowed prog) eqn:S; [rewrite table_none in T by exact S; discriminate|].
  rewrite (table_is prog S) in T. inversion T. cbn. rewrite ids_are, !map_length, numbered_length. reflexivity.
Qed.
Lemma table_builtins prog table : table_of prog = Some table -> firstn 8 table = builtin_infos.
Proof.
  intros T. destruct (existsb shadowed prog) eqn:S; [rewrite table_none in T by exact S; discriminate|].
  rewrite (table_is prog S) in T. inversion T. reflexivity.
Qed.
