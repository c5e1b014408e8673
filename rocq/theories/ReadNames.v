(** Names of a source file have no bracket in them, for C59. *)
From Coq Require Import String Ascii ZArith List Bool Lia.
From Verif Require Import TypeModel TypeGraph CheckModel DeclModel DeclSpec LitModel LexModel LexSpec LexProofs LexLoc ParseModel ReadModel ParseSpec FileSpec ReadSpec.
Import ListNotations.
Open Scope list_scope.

Definition good_byte (b : Z) : Prop := (0 <= b < 256 /\ b <> 40)%Z.
Lemma char_bytes f cs : chars_of f cs -> Forall is_byte f -> Forall (fun c => Forall is_byte (snd c) /\ (In 40%Z (snd c) -> fst c = 40%Z)) cs.
Proof.
  induction 1 as [|s r w cs N D _ IH]; intros B; [constructor|].
  assert (B1 : Forall is_byte (firstn w s)) by (rewrite Forall_forall in *; intros x Hx; apply B; rewrite <- (firstn_skipn w s); apply in_or_app; now left).
  assert (B2 : Forall is_byte (skipn w s)) by (rewrite Forall_forall in *; intros x Hx; apply B; rewrite <- (firstn_skipn w s); apply in_or_app; now right).
  constructor; [|exact (IH B2)]. cbn [fst snd]. split; [exact B1|]. intros H.
  destruct (Compare_dec.le_lt_dec 2 w) as [L|L].
  - exfalso. pose proof (decode_high s r w D L) as G. rewrite Forall_forall in G. specialize (G _ H). cbn beta in G. lia.
  - destruct (decode_width s r w N D) as [W _]. assert (w = 1%nat) by lia. subst w. destruct s as [|b s]; [now destruct N|]. cbn in H. destruct H as [->|[]].
    destruct (decode_rune_range _ _ _ B N D) as (_ & _ & R). cbn in R. destruct R as [-> _]; [lia|reflexivity].
Qed.
Lemma cont_round u r : word_cont u r -> r <> 40%Z.
Proof. intros [[H|H]|H] E; rewrite E in H; vm_compute in H; discriminate H. Qed.
Definition good_word (w : word) : Prop := fst w = KIdentifier -> Forall good_byte (snd w).
Lemma identifier_runes u k t rest : token_at u k t rest -> k = KIdentifier -> Forall (word_cont u) t.
Proof.
  destruct 1 as [r1 r2 k rest T|r k rest A _|n rest _|r rest _|b rest _ _|b rest _|r ds rest _ _ _|ds rest _ _ _|h hs rest _ _ _|k r w rest S W K _ _]; intros E; subst; try discriminate.
  - exfalso. unfold two_char in T. cbn in T. repeat match type of T with context [if ?c then _ else _] => destruct c; cbn in T end; discriminate T.
  - exfalso. cbn in A. repeat match type of A with context [if ?c then _ else _] => destruct c; cbn in A end; discriminate A.
  - constructor; [now left|exact W].
Qed.
Lemma token_words u cs ts : lexes u cs ts -> Forall (fun c => Forall is_byte (snd c) /\ (In 40%Z (snd c) -> fst c = 40%Z)) cs -> Forall (fun x => good_word (word_of x)) ts.
Proof.
  induction 1 as [|e cs _|k t rest ts T _ IH]; intros B.
  - repeat constructor; discriminate.
  - repeat constructor; discriminate.
  - apply Forall_app in B as [B1 B2]. constructor; [|exact (IH B2)]. intros E. unfold word_of in E |- *. cbn [fst snd] in E |- *. rewrite E. cbn [has_text].
    pose proof (identifier_runes u k _ _ T E) as W. clear T IH B2. unfold bytes_of. apply Forall_forall. intros b Hb. apply in_concat in Hb as (bs & Hbs & Hb). apply in_map_iff in Hbs as (c & <- & Hc).
    rewrite Forall_forall in B1. destruct (B1 c Hc) as [B C]. rewrite Forall_forall in B. split; [exact (B b Hb)|]. intros ->. specialize (C Hb).
    rewrite Forall_forall in W. apply (cont_round u (fst c)); [|exact C]. apply W. unfold runes. now apply in_map.
Qed.
Lemma file_words u f ws : Forall is_byte f -> words_of u f ws -> Forall good_word ws.
Proof.
  intros B (cs & ts & C & L & ->). pose proof (token_words u cs ts L (char_bytes f cs C B)) as G. apply Forall_forall. intros w Hw. apply in_map_iff in Hw as (x & <- & Hx). apply filter_In in Hx as [Hx _].
  rewrite Forall_forall in G. exact (G x Hx).
Qed.

(** The names. *)
Lemma str_ok x : Forall good_byte x -> name_ok (str x).
Proof.
  induction 1 as [|c x [R N] _ IH]; intros [|d a] b Q; cbn in Q; try discriminate.
  - injection Q as E _. apply N. apply (f_equal nat_of_ascii) in E. rewrite nat_ascii_embedding in E by lia. cbn in E. lia.
  - injection Q as _ Q. exact (IH a b Q).
Qed.
Lemma in_commas l (P : word -> Prop) : Forall P (commas l) -> Forall (Forall P) l.
Proof.
  induction l as [|x [|y r] IH]; intros H; [constructor|constructor; [exact H|constructor]|]. change (commas (x :: y :: r)) with (x ++ sym KComma :: commas (y :: r)) in H.
  apply Forall_app in H as [H1 H2]. constructor; [exact H1|]. apply IH. now inversion H2.
Qed.
Lemma ty_ok : forall t, Forall good_word (show_ty t) -> names_ok (mean_ty t).
Proof.
  fix IH 1. intros [x [l|]|l r|t] H; cbn [show_ty mean_ty] in *.
  - inversion H as [|? ? G H1]; subst. inversion H1 as [|? ? _ H2]; subst. apply Forall_app in H2 as [H2 _]. apply in_commas in H2.
    constructor; [exact (str_ok x (G eq_refl))|]. clear H H1 G. induction l as [|t l IHl]; constructor; inversion H2; subst; [apply IH; assumption|now apply IHl].
  - inversion H as [|? ? G H1]; subst. constructor. exact (str_ok x (G eq_refl)).
  - inversion H as [|? ? _ H1]; subst. inversion H1 as [|? ? _ H2]; subst. apply Forall_app in H2 as [H2 H3]. apply in_commas in H2. inversion H3 as [|? ? _ H4]; subst.
    assert (A : Forall names_ok (map mean_ty l)) by (clear H H1 H3 H4; induction l as [|t l IHl]; constructor; inversion H2; subst; [apply IH; assumption|now apply IHl]).
    destruct r as [t|]; constructor; auto.
  - inversion H as [|? ? _ H1]; subst. inversion H1 as [|? ? _ H2]; subst. constructor. now apply IH.
Qed.
Lemma param_ok p : Forall good_word (show_param p) -> names_ok (snd (mean_param p)).
Proof. intros H. unfold show_param in H. inversion H as [|? ? _ H1]; subst. inversion H1; subst. now apply ty_ok. Qed.
Lemma params_ok ps : Forall good_word (show_params ps) -> Forall (fun p => names_ok (snd p)) (map mean_param ps).
Proof.
  intros H. unfold show_params in H. inversion H as [|? ? _ H1]; subst. apply Forall_app in H1 as [H1 _]. apply in_commas in H1. apply Forall_forall. intros q Hq. apply in_map_iff in Hq as (p & <- & Hp).
  apply param_ok. rewrite Forall_forall in H1. apply H1. now apply in_map.
Qed.
Lemma flat_ok {A} (f : A -> list word) l : Forall good_word (flat_map f l) -> forall x, In x l -> Forall good_word (f x).
Proof. intros H x Hx. rewrite Forall_forall in *. intros w Hw. apply H. apply in_flat_map. eauto. Qed.
Definition decl_names_ok (d : DeclModel.decl) : Prop :=
  match d with
  | DeclModel.DStruct x _ fs => name_ok x /\ Forall (fun f => names_ok (snd f)) fs
  | DeclModel.DEnum x _ ms => name_ok x /\ forall y ps, In (y, ps) ms -> Forall (fun p => names_ok (snd p)) ps
  | DeclModel.DFn _ _ ps r _ => Forall (fun p => names_ok (snd p)) ps /\ match r with Some e => names_ok e | None => True end
  end.
Lemma decl_ok d g : Forall good_word (show_decl d) -> mean_decl d = Some g -> decl_names_ok g.
Proof.
  destruct d as [at' x tps ps r b|at' x tps fs|at' x tps cs]; cbn [show_decl mean_decl]; intros H E; apply Forall_app in H as [_ H]; inversion H as [|? ? _ H1]; subst; inversion H1 as [|? ? Hx H2]; subst; apply Forall_app in H2 as [_ H2].
  - change (Forall good_word (show_params ps ++ opt show_ty r ++ opt show_body b)) in H2. apply Forall_app in H2 as [H2 H3]. apply Forall_app in H3 as [H3 _]. destruct (mean_tparams tps) as [ts|]; [|discriminate]. destruct (mean_body b) as [b'|]; [|discriminate]. injection E as <-.
    split; [now apply params_ok|]. destruct r as [t|]; [|exact I]. now apply ty_ok.
  - inversion H2 as [|? ? _ H3]; subst. apply Forall_app in H3 as [H3 _]. destruct (mean_tparams tps) as [ts|]; [|discriminate]. injection E as <-. split; [exact (str_ok x (Hx eq_refl))|].
    apply Forall_forall. intros q Hq. apply in_map_iff in Hq as (p & <- & Hp). apply param_ok. exact (flat_ok _ _ H3 p Hp).
  - inversion H2 as [|? ? _ H3]; subst. apply Forall_app in H3 as [H3 _]. destruct (mean_tparams tps) as [ts|]; [|discriminate]. injection E as <-. split; [exact (str_ok x (Hx eq_refl))|].
    intros y ps Hy. apply in_map_iff in Hy as (c & Ec & Hc). injection Ec as <- <-. pose proof (flat_ok _ _ H3 c Hc) as K. cbn beta in K. inversion K; subst. now apply params_ok.
Qed.
Lemma program_ok p ds : Forall good_word (flat_map show_decl p) -> mean_program p = Some ds -> all_names_ok ds.
Proof.
  intros H M. assert (K : Forall decl_names_ok ds).
  { revert ds M. induction p as [|d p IH]; intros ds M; [injection M as <-; constructor|]. unfold mean_program, all in *. cbn [map all_some flat_map] in *. apply Forall_app in H as [H1 H2].
    destruct (mean_decl d) as [g|] eqn:D; [|discriminate]. destruct (all_some (map mean_decl p)) as [gs|]; [|discriminate]. injection M as <-. constructor; [exact (decl_ok d g H1 D)|exact (IH H2 gs eq_refl)]. }
  intros d Hd. rewrite Forall_forall in K. exact (K d Hd).
Qed.
Lemma programs_ok u files progs ds : Forall (Forall is_byte) files -> Forall2 (fun f p => words_of u f (show_program p)) files progs -> mean_program (concat progs) = Some ds -> all_names_ok ds.
Proof.
  intros B W. apply program_ok. induction W as [|f p fs ps Hw _ IH]; [constructor|]. inversion B; subst. cbn [concat]. rewrite flat_map_app. apply Forall_app. split; [|auto].
  pose proof (file_words u f _ ltac:(assumption) Hw) as G. unfold show_program in G. now apply Forall_app in G.
Qed.
