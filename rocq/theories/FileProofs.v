(** Reading of the source files. *)
From Coq Require Import ZArith List Bool Lia.
From Verif Require Import LexModel LexSpec LexProofs LexRun LexDet LexLayout ParseModel ParseSpec ParseTotal ParseProg ParseSound FileModel FileSpec FileParse FileShow.
Import ListNotations.
Open Scope nat_scope.

(** Errors without their places. *)
Definition bare_err (e : ferr) : ferr := match e with LexErr t => LexErr (strip t) | SynErr t x => SynErr (strip t) x end.

Section Files.
Variable u : unicode.
Variable attr_name : list Z -> option bool.
Notation read := (lex_and_parse u attr_name).

Lemma filter_all : forall ts acc, closed_stream (map kv ts) ->
  let out := filter (fun t => negb (is_layout (tk_kind t))) ts in
  (exists w0 eof, out = w0 ++ [eof] /\ tk_kind eof = KEOF /\ (forall t, In t w0 -> tk_kind t <> KEOF /\ forall e, tk_kind t <> KErr e) /\ filter_tokens ts acc = Some (inr (rev acc ++ out))) \/
  (exists w0 t e, out = w0 ++ [t] /\ tk_kind t = KErr e /\ (forall t, In t w0 -> forall e, tk_kind t <> KErr e) /\ filter_tokens ts acc = Some (inl t)).
Proof.
  induction ts as [|[k v p n] ts IH]; intros acc Hc; [inversion Hc|]. cbn [map] in Hc. unfold kv in Hc at 1. cbn [tk_kind tk_val] in Hc. remember ((k, v) :: map kv ts) as s eqn:Es.
  destruct Hc as [|e|k0 v0 r H1 H2 H3 H4]; inversion Es; subst.
  - left. destruct ts; [|discriminate]. exists [], (Token KEOF [] p n). cbn. repeat split; auto; contradiction.
  - right. destruct ts; [|discriminate]. exists [], (Token (KErr e) [] p n), e. cbn. repeat split; auto; contradiction.
  - cbn [filter tk_kind filter_tokens]. destruct (is_layout k) eqn:El; cbn [negb]; [apply IH, H4|]. assert (E : match k with KErr _ => Some (inl (Token k v p n)) | KEOF => Some (inr (rev (Token k v p n :: acc))) | _ => filter_tokens ts (Token k v p n :: acc) end = filter_tokens ts (Token k v p n :: acc)).
    { destruct k; try reflexivity; [exfalso; eapply H2; reflexivity|congruence]. }
    rewrite E. clear E. destruct (IH (Token k v p n :: acc) H4) as [(w0 & eof & E1 & E2 & E3 & E4)|(w0 & t & e & E1 & E2 & E3 & E4)].
    + left. exists (Token k v p n :: w0), eof. rewrite E1. split; [reflexivity|]. split; [exact E2|]. split.
      * intros t [<-|Ht]; [now split|now apply E3].
      * rewrite E4, E1. cbn [rev]. now rewrite <- app_assoc.
    + right. exists (Token k v p n :: w0), t, e. rewrite E1. split; [reflexivity|]. split; [exact E2|]. split; [|exact E4]. intros t0 [<-|Ht]; [exact H2|now apply E3].
Qed.

Lemma look_word ts : map word_of (filter (fun x => negb (is_layout (fst x))) (map kv ts)) = map look (filter (fun t => negb (is_layout (tk_kind t))) ts).
Proof.
  induction ts as [|[k v p n] ts IH]; [reflexivity|]. cbn [map filter]. unfold kv at 1. cbn [fst tk_kind tk_val]. destruct (is_layout k); cbn [negb]; [exact IH|]. cbn [map]. rewrite IH. f_equal.
  unfold kv, word_of, look. cbn. destruct k; reflexivity.
Qed.

(** Every file has its words, and only those. *)
Lemma words_exist f : Forall is_byte f -> exists ws, words_of u f ws.
Proof. intros H. destruct (chars_total f) as [cs Hc]. destruct (lex_spec u f cs H Hc) as (ts & _ & Hl & _). eexists. exists cs, (map kv ts). eauto. Qed.
Lemma words_unique f ws ws' : words_of u f ws -> words_of u f ws' -> ws = ws'.
Proof.
  intros (cs & ts & C & L & ->) (cs' & ts' & C' & L' & ->). rewrite (chars_functional f cs C cs' C') in L. now rewrite (lexes_unique u _ _ L _ L').
Qed.
Lemma file_tokens f ws : Forall is_byte f -> words_of u f ws ->
  (exists w0 eof, lex_filtered u f = Some (inr (w0 ++ [eof])) /\ map look (w0 ++ [eof]) = ws /\ tk_kind eof = KEOF /\ (forall t, In t w0 -> tk_kind t <> KEOF) /\ Forall (fun w => ~ wrong w) ws) \/
  (exists t e ws0, lex_filtered u f = Some (inl t) /\ tk_kind t = KErr e /\ ws = ws0 ++ [sym (KErr e)] /\ Forall (fun w => ~ wrong w) ws0).
Proof.
  intros Hb (cs & ts & C & L & ->). destruct (lex_spec u f cs Hb C) as (toks & E & Hlx & _). rewrite (lexes_unique u _ _ L _ Hlx). rewrite look_word.
  unfold lex_filtered. rewrite E. pose proof (filter_all toks [] (lexes_closed u _ _ (chars_good _ _ Hb C) Hlx)) as K. cbv zeta in K.
  assert (NW : forall w0 : list token, (forall t, In t w0 -> forall e, tk_kind t <> KErr e) -> Forall (fun w => ~ wrong w) (map look w0)).
  { intros w0 H. apply Forall_forall. intros w Hw [e He]. apply in_map_iff in Hw as (t & <- & Ht). exact (H t Ht e He). }
  destruct K as [(w0 & eof & E1 & E2 & E3 & E4)|(w0 & t & e & E1 & E2 & E3 & E4)].
  - left. exists w0, eof. rewrite E4, E1. cbn [rev app]. repeat split; auto; [intros t Ht; now apply E3|]. apply NW. intros t Ht e He. apply in_app_or in Ht as [Ht|[<-|[]]]; [now apply (E3 t Ht) in He|congruence].
  - right. exists t, e, (map look w0). rewrite E4, E1, map_app. cbn [map]. repeat split; auto. do 2 f_equal. unfold look. rewrite E2. reflexivity.
Qed.

(** Reading one file. *)
Lemma read_one f ws : Forall is_byte f -> words_of u f ws ->
  (exists ts r, map look ts = ws /\ Forall (fun w => ~ wrong w) ws /\ parse attr_name (4 * length ts + 1) ts [] = Some r /\
     (exists w0 eof, ts = w0 ++ [eof] /\ tk_kind eof = KEOF /\ (forall t, In t w0 -> tk_kind t <> KEOF)) /\
     forall roots, read f roots = Some (roots ++ fst r, map (fun e => SynErr (fst e) (snd e)) (snd r))) \/
  (exists t e ws0, tk_kind t = KErr e /\ ws = ws0 ++ [sym (KErr e)] /\ Forall (fun w => ~ wrong w) ws0 /\ forall roots, read f roots = Some (roots, [LexErr t])).
Proof.
  intros Hb Hw. destruct (file_tokens f ws Hb Hw) as [(w0 & eof & E & L & K1 & K2 & K3)|(t & e & ws0 & E & K1 & K2 & K3)].
  - left. destruct (parse_total attr_name (w0 ++ [eof]) []) as [r Hr]; [intros C; now apply app_eq_nil in C|]. specialize (Hr _ (le_n _)). exists (w0 ++ [eof]), r.
    repeat split; auto; [eauto|]. intros roots. unfold lex_and_parse. rewrite E, parse_root, Hr. now destruct r.
  - right. exists t, e, ws0. repeat split; auto. intros roots. unfold lex_and_parse. now rewrite E.
Qed.
Lemma read_total f : Forall is_byte f -> exists r, forall roots, read f roots = Some (roots ++ fst r, snd r).
Proof.
  intros Hb. destruct (words_exist f Hb) as [ws Hw]. destruct (read_one f ws Hb Hw) as [(ts & r & _ & _ & _ & _ & K)|(t & e & ws0 & _ & _ & _ & K)].
  - now exists (fst r, map (fun e => SynErr (fst e) (snd e)) (snd r)).
  - exists ([], [LexErr t]). intros roots. rewrite K. cbn. now rewrite app_nil_r.
Qed.

(** All files. *)
Lemma read_all : forall files rs, Forall2 (fun f r => forall roots, read f roots = Some (roots ++ fst r, snd r)) files rs ->
  forall roots es, read_files u attr_name files roots es = Some (roots ++ flat_map fst rs, es ++ flat_map snd rs).
Proof.
  induction 1 as [|f r files rs H _ IH]; intros roots es; cbn [read_files flat_map]; [now rewrite !app_nil_r|]. rewrite H, IH. now rewrite !app_assoc.
Qed.
Lemma total_all files : Forall (Forall is_byte) files -> exists rs, Forall2 (fun f r => forall roots, read f roots = Some (roots ++ fst r, snd r)) files rs.
Proof. induction 1 as [|f files H _ [rs IH]]; [now exists []|]. destruct (read_total f H) as [r Hr]. exists (r :: rs). now constructor. Qed.
Theorem files_are_read files : Forall (Forall is_byte) files -> exists rs,
  Forall2 (fun f r => read f [] = Some r) files rs /\ read_files u attr_name files [] [] = Some (flat_map fst rs, flat_map snd rs).
Proof.
  intros H. destruct (total_all files H) as [rs Hr]. exists rs. split.
  - clear H. induction Hr as [|f [ns es] files rs K _ IH]; constructor; auto. now rewrite K.
  - rewrite (read_all _ _ Hr). reflexivity.
Qed.
Lemma front_ok files ns : front_end u attr_name files = Some (inl ns) <-> read_files u attr_name files [] [] = Some (ns, []).
Proof.
  unfold front_end. destruct (read_files u attr_name files [] []) as [[m [|e es]]|]; split; intros K; try discriminate; congruence.
Qed.

(** Files with the words of programs. *)
Lemma program_file f p : Forall is_byte f -> words_of u f (show_program p) -> fits_program true true p = true ->
  exists ns, (forall roots, read f roots = Some (roots ++ ns, [])) /\ map erase ns = map (node_decl attr_name) p.
Proof.
  intros Hb Hw Hf. destruct (read_one f _ Hb Hw) as [(ts & r & L & _ & P & _ & K)|(t & e & ws0 & _ & C & _)].
  - destruct (program_claim attr_name p ts _ L Hf (le_n _)) as (ns & H1 & H2). exists ns. split; [|exact H2]. intros roots. rewrite K. replace r with (ns, @nil (token * expected)) by congruence. reflexivity.
  - unfold show_program in C. apply app_inj_tail in C as [_ C]. discriminate.
Qed.
Theorem programs_are_read files progs : Forall (Forall is_byte) files -> Forall2 (fun f p => words_of u f (show_program p)) files progs -> Forall (fun p => fits_program true true p = true) progs ->
  exists ns, front_end u attr_name files = Some (inl ns) /\ map erase ns = map (node_decl attr_name) (concat progs).
Proof.
  intros Hb Hw Hf. assert (K : exists rs, Forall2 (fun f r => forall roots, read f roots = Some (roots ++ fst r, snd r)) files rs /\
    flat_map snd rs = [] /\ map erase (flat_map fst rs) = map (node_decl attr_name) (concat progs)).
  { induction Hw as [|f p files progs H _ IH]; [now exists []|]. inversion Hb; subst. inversion Hf; subst. destruct IH as (rs & R1 & R2 & R3); auto.
    destruct (program_file f p) as (ns & N1 & N2); auto. exists ((ns, []) :: rs). split; [constructor; auto|]. cbn. split; [exact R2|]. now rewrite !map_app, N2, R3. }
  destruct K as (rs & R1 & R2 & R3). exists (flat_map fst rs). split; [|exact R3]. apply front_ok. rewrite (read_all _ _ R1), R2. reflexivity.
Qed.
Theorem written_are_read progs : Forall (writable_program u) progs -> Forall (fun p => fits_program true true p = true) progs ->
  exists ns, front_end u attr_name (map write progs) = Some (inl ns) /\ map erase ns = map (node_decl attr_name) (concat progs).
Proof.
  intros Hw Hf. apply programs_are_read; auto.
  - clear Hf. induction Hw; cbn; constructor; eauto using write_bytes.
  - clear Hf. induction Hw; cbn; constructor; auto using write_words.
Qed.

(** A file is accepted only if its words are a program's. *)
Definition last_word (ws : list word) : kind := fst (last (removelast ws) (sym KEOF)).
Lemma lastk_look : forall w k v, fst (last (map look w) (k, v)) = lastk k w.
Proof.
  induction w as [|t w IH]; intros k v; [reflexivity|]. cbn [map lastk]. destruct w as [|t2 w]; [reflexivity|]. change (last (look t :: map look (t2 :: w)) (k, v)) with (last (map look (t2 :: w)) (k, v)).
  rewrite IH. cbn [lastk]. destruct w; reflexivity.
Qed.
Lemma accepted_file f ws ns : Forall is_byte f -> words_of u f ws -> wants (last_word ws) = false -> read f [] = Some (ns, []) ->
  exists p, ws = show_program p /\ map erase ns = map (node_decl attr_name) p.
Proof.
  intros Hb Hw Hl H. destruct (read_one f ws Hb Hw) as [(ts & r & L & _ & P & (w0 & eof & -> & K1 & K2) & K)|(t & e & ws0 & _ & _ & _ & K)]; rewrite K in H; [|discriminate].
  injection H as H1 H2. cbn in H1. destruct r as [n2 es]. cbn in *. subst n2. destruct es; [|discriminate]. subst ws. apply (program_back attr_name) in P; auto.
  revert Hl. unfold last_word. rewrite map_app. cbn [map]. rewrite removelast_last. unfold sym. now rewrite lastk_look.
Qed.
Theorem accepted_files files wss ns : Forall (Forall is_byte) files -> Forall2 (words_of u) files wss -> Forall (fun ws => wants (last_word ws) = false) wss ->
  front_end u attr_name files = Some (inl ns) -> exists progs, wss = map show_program progs /\ map erase ns = map (node_decl attr_name) (concat progs).
Proof.
  intros Hb Hw Hl H. apply front_ok in H. destruct (total_all files Hb) as [rs R]. rewrite (read_all _ _ R) in H. injection H as <- E. cbn [app] in *. revert wss Hw Hl E Hb.
  induction R as [|f r files rs R1 R IH]; intros wss Hw Hl E Hb; inversion Hw; subst.
  - exists []. split; reflexivity.
  - inversion Hl; subst. inversion Hb; subst. cbn [flat_map] in E. apply app_eq_nil in E as [E1 E2]. destruct r as [n1 e1]. cbn in E1. subst e1. specialize (R1 []). cbn [app fst snd] in R1.
    destruct (accepted_file f y n1) as (p & -> & P2); auto. destruct (IH l') as (progs & -> & P3); auto. exists (p :: progs). split; [reflexivity|]. cbn. now rewrite !map_app, P2, P3.
Qed.

(** Two files with the same words. *)
Definition bare_file (r : list node * list ferr) : list node * list ferr := (map erase (fst r), map bare_err (snd r)).
Lemma same_file f f' ws : Forall is_byte f -> Forall is_byte f' -> words_of u f ws -> words_of u f' ws -> option_map bare_file (read f []) = option_map bare_file (read f' []).
Proof.
  intros Hb Hb' Hw Hw'. destruct (read_one f ws Hb Hw) as [(ts & r & L & N & P & _ & K)|(t & e & ws0 & E1 & E2 & E3 & K)]; destruct (read_one f' ws Hb' Hw') as [(ts' & r' & L' & N' & P' & _ & K')|(t' & e' & ws0' & E1' & E2' & E3' & K')]; rewrite K, K'.
  - assert (X : length ts = length ts') by (rewrite <- (map_length look ts), <- (map_length look ts'); congruence).
    pose proof (parse_looks attr_name (4 * length ts + 1) ts ts' [] [] ltac:(congruence) eq_refl) as Q. rewrite P, X, P' in Q. cbn in Q. injection Q as Q1 Q2.
    unfold bare_file. cbn. rewrite Q1. do 2 f_equal. rewrite !map_map. cbn. unfold bare_errs in Q2. apply (f_equal (map (fun e => SynErr (fst e) (snd e)))) in Q2. rewrite !map_map in Q2. exact Q2.
  - exfalso. rewrite E2' in N. apply Forall_app in N as [_ N]. inversion N as [|? ? X _]; subst. apply X. now exists e'.
  - exfalso. rewrite E2 in N'. apply Forall_app in N' as [_ N']. inversion N' as [|? ? X _]; subst. apply X. now exists e.
  - cbn. unfold bare_file. cbn. do 4 f_equal. unfold strip, look. rewrite E1, E1'. rewrite E2 in E2'. apply app_inj_tail in E2' as [_ E2']. injection E2' as ->. reflexivity.
Qed.
Theorem same_files files files' wss : Forall (Forall is_byte) files -> Forall (Forall is_byte) files' -> Forall2 (words_of u) files wss -> Forall2 (words_of u) files' wss ->
  exists r r', read_files u attr_name files [] [] = Some r /\ read_files u attr_name files' [] [] = Some r' /\ bare_file r = bare_file r'.
Proof.
  intros Hb Hb' Hw Hw'. destruct (total_all files Hb) as [rs R]. destruct (total_all files' Hb') as [rs' R']. exists (flat_map fst rs, flat_map snd rs), (flat_map fst rs', flat_map snd rs').
  split; [now rewrite (read_all _ _ R)|]. split; [now rewrite (read_all _ _ R')|].
  assert (Q : map bare_file rs = map bare_file rs').
  { revert files files' rs rs' Hb Hb' Hw Hw' R R'. induction wss as [|ws wss IH]; intros files files' rs rs' Hb Hb' Hw Hw' R R'; inversion Hw as [|f ? files0 ? W1 W2]; subst; inversion Hw' as [|f' ? files0' ? W1' W2']; subst;
      inversion R as [|? r ? rs0 R1 R2]; subst; inversion R' as [|? r' ? rs0' R1' R2']; subst; [reflexivity|]. inversion Hb; subst. inversion Hb'; subst. cbn [map]. f_equal; [|apply (IH files0 files0'); assumption].
    pose proof (same_file f f' ws) as Z. rewrite R1, R1' in Z. destruct r, r'. cbn in Z. specialize (Z ltac:(assumption) ltac:(assumption) W1 W1'). unfold bare_file in *. cbn in *. congruence. }
  assert (B : forall l : list (list node * list ferr), bare_file (flat_map fst l, flat_map snd l) = (flat_map fst (map bare_file l), flat_map snd (map bare_file l))).
  { clear. unfold bare_file. cbn. induction l as [|[a b] l IH]; [reflexivity|]. cbn. rewrite !map_app. injection IH as -> ->. reflexivity. }
  rewrite !B. now rewrite Q.
Qed.
End Files.
