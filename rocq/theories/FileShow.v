(** The words of a program, one by one, and that a program that is written down is read as
    its words. *)
From Coq Require Import Ascii String ZArith List Bool Lia.
From Verif Require Import LexModel LexSpec LexProofs LexRun LexDet LexLayout LexLoc ParseModel ParseSpec FileSpec.
Import ListNotations.
Open Scope list_scope.

(** Only names and literals have a text; the others have a spelling. *)
Definition plain (w : word) : Prop := if has_text (fst w) then True else snd w = [] /\ spelling (fst w) <> [].
Ltac pl := unfold plain, sym; cbn; first [exact I|split; [reflexivity|discriminate]].
Lemma plain_cons w l : plain w -> Forall plain l -> Forall plain (w :: l). Proof. now constructor. Qed.
Lemma plain_app a b : Forall plain a -> Forall plain b -> Forall plain (a ++ b). Proof. intros. apply Forall_app. now split. Qed.
Lemma plain_commas l : Forall (Forall plain) l -> Forall plain (commas l).
Proof.
  induction 1 as [|x l H _ IH]; [constructor|]. cbn [commas]. destruct l as [|y l]; [exact H|]. apply plain_app; [exact H|]. apply plain_cons; [pl|exact IH].
Qed.
Lemma plain_each {A} (f : A -> list word) l : (forall x, Forall plain (f x)) -> Forall plain (flat_map f l).
Proof. intros H. induction l as [|x l IH]; [constructor|]. cbn. now apply plain_app. Qed.
Ltac ps := repeat first [apply plain_app|apply plain_cons; [pl|]|apply Forall_nil].
Lemma plain_ty : forall t, Forall plain (show_ty t).
Proof.
  fix IH 1. intros [x [l|]|l [r|]|t]; cbn [show_ty]; ps; try apply IH; apply plain_commas; induction l as [|a l IHl]; constructor; auto.
Qed.
Lemma plain_map {A} (f : A -> list word) l : (forall x, Forall plain (f x)) -> Forall plain (commas (map f l)).
Proof. intros H. apply plain_commas. induction l; constructor; auto. Qed.
Lemma plain_tys l : Forall plain (show_tys l).
Proof. unfold show_tys. ps. apply plain_map, plain_ty. Qed.
Lemma plain_param p : Forall plain (show_param p).
Proof. unfold show_param. ps. apply plain_ty. Qed.
Lemma plain_params l : Forall plain (show_params l).
Proof. unfold show_params. ps. apply plain_map, plain_param. Qed.
Lemma plain_opt {A} (f : A -> list word) o : (forall x, Forall plain (f x)) -> Forall plain (opt f o).
Proof. intros H. destruct o; [apply H|constructor]. Qed.
Lemma plain_lit l : plain (show_lit l). Proof. destruct l; pl. Qed.
Lemma plain_ids l : Forall plain (commas (map (fun i : name => [(KIdentifier, i)]) l)).
Proof. apply plain_map. intros x. ps. Qed.
Lemma plain_head x ids : Forall plain (show_case_head x ids).
Proof. unfold show_case_head. ps. apply plain_ids. Qed.
Lemma plain_un o : plain (sym (un_kind o)). Proof. destruct o; pl. Qed.
Lemma plain_bin o : plain (sym (bin_kind o)). Proof. destruct o; pl. Qed.
Lemma plain_expr : forall e, Forall plain (show e)
with plain_body : forall b, Forall plain (show_body b)
with plain_stmt : forall s, Forall plain (show_stmt s)
with plain_branch : forall r, Forall plain (show_branch r).
Proof.
  - intros [x|li|e|o e|o a b|c a b|a i|f args|f ts args|es|t|tps ps r b]; cbn [show].
    + ps.
    + apply plain_cons; [apply plain_lit|constructor].
    + ps. apply plain_expr.
    + apply plain_cons; [apply plain_un|apply plain_expr].
    + apply plain_app; [apply plain_expr|]. apply plain_cons; [apply plain_bin|apply plain_expr].
    + ps; apply plain_expr.
    + ps; apply plain_expr.
    + ps; [apply plain_expr|]. apply plain_commas. induction args; constructor; [apply plain_expr|assumption].
    + ps; [apply plain_expr|apply plain_map, plain_ty|]. apply plain_commas. induction args; constructor; [apply plain_expr|assumption].
    + ps. apply plain_commas. induction es; constructor; [apply plain_expr|assumption].
    + ps. apply plain_ty.
    + ps; [apply plain_opt, plain_tys|apply plain_map, plain_param|apply plain_opt, plain_ty|apply plain_body].
  - intros [l|e]; cbn [show_body]; ps; [|apply plain_expr]. induction l; cbn [flat_map]; ps; [apply plain_stmt|assumption].
  - assert (SS : forall l, Forall plain (flat_map show_stmt l) -> Forall plain (flat_map show_stmt l)) by auto.
    intros [[e|]|c l|x e [e2|] l|c l r|e cs|a e|a e|e]; cbn [show_stmt].
    + ps. apply plain_expr.
    + ps.
    + ps; [apply plain_expr|]. induction l; cbn [flat_map]; ps; [apply plain_stmt|assumption].
    + ps; [apply plain_expr|apply plain_expr|]. induction l; cbn [flat_map]; ps; [apply plain_stmt|assumption].
    + ps; [apply plain_expr|]. induction l; cbn [flat_map]; ps; [apply plain_stmt|assumption].
    + ps; [apply plain_expr| |apply plain_branch]. induction l; cbn [flat_map]; ps; [apply plain_stmt|assumption].
    + ps; [apply plain_expr|]. induction cs as [|[[x ids] l] cs IHc]; cbn [flat_map fst snd]; [constructor|]. apply plain_app; [|exact IHc]. apply plain_app; [apply plain_head|].
      induction l; cbn [flat_map]; ps; [apply plain_stmt|assumption].
    + ps; apply plain_expr.
    + ps; apply plain_expr.
    + apply plain_expr.
  - intros [|c l r|l]; cbn [show_branch].
    + constructor.
    + ps; [apply plain_expr| |apply plain_branch]. induction l; cbn [flat_map]; ps; [apply plain_stmt|assumption].
    + ps. induction l; cbn [flat_map]; ps; [apply plain_stmt|assumption].
Qed.
Lemma plain_attrs l : Forall plain (show_attrs l).
Proof. destruct l; [constructor|]. unfold show_attrs. ps. apply plain_ids. Qed.
Lemma plain_decl d : Forall plain (show_decl d).
Proof.
  destruct d as [al x tl pl_ r b|al x tl fs|al x tl cs]; cbn [show_decl]; ps; try apply plain_attrs; try (apply plain_opt, plain_tys).
  - apply plain_map, plain_param.
  - apply plain_opt, plain_ty.
  - apply plain_opt, plain_body.
  - apply plain_each, plain_param.
  - apply plain_each. intros [y l]. cbn. ps. apply plain_map, plain_param.
Qed.
Lemma plain_program p : Forall plain (flat_map show_decl p).
Proof. apply plain_each, plain_decl. Qed.

(** The spellings are those of the grammar. *)
Lemma spelled u k : has_text k = false -> spelling k <> [] -> is_layout k = false /\ token_at u k (spelling k) [32%Z] /\ Forall scalar (spelling k).
Proof.
  intros Ht Hs. destruct k; cbn in Ht, Hs; try discriminate; try congruence; (split; [reflexivity|]; split; [|repeat constructor; unfold scalar; cbn; lia]).
  all: try (apply tok_two; reflexivity).
  all: try (apply tok_one; [reflexivity|]; cbn; intros [H|[H1 H2]]; [now apply H|discriminate]).
  all: cbn [spelling]; match goal with |- token_at _ _ ?t _ => let t' := eval cbn in t in change t with t' end; apply tok_word.
  all: try (right; reflexivity).
  all: try (repeat constructor; left; right; reflexivity).
  all: try (cbn; intros [[H|H]|H]; discriminate).
  all: try solve [left; cbn; auto 10].
  all: left; eexists; split; [cbn; repeat first [left; reflexivity|right]|reflexivity].
Qed.

(** A text of words with a blank behind each. *)
Lemma chars_run rs : map fst (map (fun r => (r, utf8 r)) rs) = rs.
Proof. induction rs; cbn; congruence. Qed.
Lemma spell_word u w : plain w -> writable u w -> exists rs, Forall scalar rs /\ is_layout (fst w) = false /\
  token_at u (fst w) rs [32%Z] /\ spell w = concat (map utf8 (rs ++ [32%Z])) /\ word_of (fst w, concat (map utf8 rs)) = w.
Proof.
  destruct w as [k v]. unfold plain, writable, spell, word_of. cbn [fst snd]. destruct (has_text k) eqn:E; intros P W.
  - destruct (W eq_refl) as (rs & H1 & -> & H2). exists rs. split; [exact H1|]. split; [destruct k; try discriminate; reflexivity|]. split; [exact H2|]. split; [|reflexivity].
    rewrite map_app, concat_app. reflexivity.
  - destruct P as [-> P]. destruct (spelled u k E P) as (H1 & H2 & H3). exists (spelling k). repeat split; auto. now rewrite map_app, concat_app.
Qed.
Definition enc (rs : list rune) : list uchar := map (fun r => (r, utf8 r)) rs.
Lemma runes_enc rs : runes (enc rs) = rs.
Proof. unfold runes, enc. rewrite map_map. cbn. apply map_id. Qed.
Lemma bytes_enc rs : bytes_of (enc rs) = concat (map utf8 rs).
Proof. unfold bytes_of, enc. rewrite map_map. reflexivity. Qed.
Lemma spell_words u ws : Forall plain ws -> Forall (writable u) ws -> exists d rs, doc_ok u d /\ doc_text d = enc rs /\ Forall scalar rs /\
  flat_map spell ws = concat (map utf8 rs) /\ map word_of (doc_tokens d) = ws.
Proof.
  intros P W. induction P as [|w ws P Ps IH].
  - exists [], []. repeat split; constructor.
  - inversion W as [|? ? W1 W2]; subst. destruct (IH W2) as (d & rs & H1 & H2 & H3 & H4 & H5). destruct (spell_word u w P W1) as (r0 & K1 & K2 & K3 & K4 & K5).
    exists (((fst w, enc r0), enc [32%Z]) :: d), ((r0 ++ [32%Z]) ++ rs). split; [|split; [|split; [|split]]].
    + constructor; [exact K2| | |exact H1].
      * rewrite runes_enc. unfold runes. rewrite map_app. cbn [enc map app fst]. eapply token_same_next. exact K3.
      * rewrite runes_enc. right. split; [apply lay_blank; [left; reflexivity|constructor]|]. exists 32%Z, []. split; [reflexivity|now left].
    + unfold doc_text in *. cbn [map concat]. rewrite H2. unfold enc. now rewrite <- !map_app.
    + rewrite !Forall_app. repeat split; auto. constructor; [|constructor]. unfold scalar. lia.
    + cbn [flat_map]. rewrite K4, H4. now rewrite (map_app _ _ rs), concat_app.
    + cbn [doc_tokens map]. rewrite bytes_enc. fold (doc_tokens d). now rewrite K5, H5.
Qed.

(** The words of a text cut into tokens and gaps. *)
Lemma doc_words u lead d f : layout (runes lead) -> doc_ok u d -> chars_of f (lead ++ doc_text d) -> words_of u f (map word_of (doc_tokens d) ++ [sym KEOF]).
Proof.
  intros Hlead Hd Hc. destruct (doc_lexes u d Hd) as (ts & Hts & Hsig).
  destruct (layout_lexes u (List.length lead) lead (doc_text d) ts) as (lts & Hl & Hs & _); eauto using doc_no_blank.
  exists (lead ++ doc_text d), (lts ++ ts). split; [exact Hc|]. split; [exact Hl|]. rewrite filter_app, map_app. unfold significant in *.
  assert (F : forall l : list (kind * list byte), filter (fun x => negb (is_layout (fst x))) l = filter (fun '(k, _) => negb (is_layout k)) l) by (intros l; apply filter_ext; now intros [? ?]).
  rewrite !F, Hs, Hsig. cbn [map app]. now rewrite map_app.
Qed.
Theorem write_words u p : writable_program u p -> words_of u (write p) (show_program p).
Proof.
  intros W. destruct (spell_words u _ (plain_program p) W) as (d & rs & H1 & H2 & H3 & H4 & H5). unfold show_program. rewrite <- H5 at 1. unfold write.
  apply (doc_words u []); [constructor|exact H1|]. cbn [app]. rewrite H2, H4. now apply chars_encode.
Qed.
Lemma utf8_bytes r : scalar r -> Forall is_byte (utf8 r).
Proof.
  unfold scalar, utf8, is_byte. intros H.
  repeat match goal with |- context [if ?c then _ else _] => destruct c eqn:? end; rewrite ?Z.ltb_lt, ?Z.ltb_ge in *; repeat constructor; Z.to_euclidean_division_equations; lia.
Qed.
Lemma write_bytes u p : writable_program u p -> Forall is_byte (write p).
Proof.
  intros W. destruct (spell_words u _ (plain_program p) W) as (d & rs & H1 & H2 & H3 & H4 & H5). unfold write. rewrite H4. clear -H3.
  induction H3; cbn; [constructor|]. apply Forall_app. split; [now apply utf8_bytes|assumption].
Qed.
