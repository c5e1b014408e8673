(** Lemmas for C16: what labels tell apart. *)
From Coq Require Import Ascii String List Bool PeanoNat Lia.
From Verif Require Import TypeModel TypeSpec TypeProofs.
Import ListNotations.
Local Open Scope string_scope.

(** A label is a head followed by the labels of parts. *)
Definition head (t : ty) : string :=
  match t with
  | TStruct _ n _ | TEnum _ n _ => n
  | TFun _ _ _ _ => "fn"
  | TArr _ => "array"
  | TInt => "int"
  | TBytes => "bytes"
  | TBool => "bool"
  | TString => "string"
  | TNothing => "nothing"
  | TPointer => "pointer"
  | TParam _ => "T"
  end.

Definition parts (t : ty) : list ty :=
  match t with
  | TStruct _ _ ts | TEnum _ _ ts => ts
  | TFun _ _ ps _ => ps
  | TArr e => [e]
  | _ => []
  end.

Definition names (ts : list ty) : list string :=
  (fix names (ts : list ty) : list string :=
     match ts with [] => [] | a :: ts' => asm_name a :: names ts' end) ts.

Lemma app_assoc_s : forall a b c : string, (a ++ b) ++ c = a ++ (b ++ c).
Proof. induction a; intros; cbn; [reflexivity|]. rewrite IHa. reflexivity. Qed.

Lemma app_nil_s : forall a : string, a ++ "" = a.
Proof. induction a; cbn; congruence. Qed.

Lemma asm_name_parts : forall t, asm_name t =
  head t ++ match parts t with [] => "" | _ => "$" ++ join "." (names (parts t)) ++ "$" end.
Proof.
  destruct t; cbn [asm_name head parts]; try reflexivity.
  - destruct types; [rewrite app_nil_s; reflexivity|reflexivity].
  - destruct types; [rewrite app_nil_s; reflexivity|reflexivity].
  - destruct params; reflexivity.
Qed.

(** What can follow a head, and what can follow the label of a type. *)
Definition sep (c : ascii) : Prop := c = "."%char \/ c = "$"%char.
Definition ends (k : string) : Prop := match k with EmptyString => True | String c _ => sep c end.
Definition stop (k : string) : Prop :=
  match k with
  | EmptyString => True
  | String c k' => c = "."%char \/ (c = "$"%char /\ ends k')
  end.

Lemma stop_ends : forall k, stop k -> ends k.
Proof. intros [|c k]; cbn; [auto|]. unfold sep. intros [H|[H _]]; auto. Qed.

Lemma stop_dollar : forall k, stop k -> stop ("$" ++ k).
Proof. intros k H. right. split; [reflexivity|apply stop_ends, H]. Qed.

Lemma clean_cons : forall c s, clean (String c s) = true -> ~ sep c /\ clean s = true.
Proof.
  intros c s H. cbn [clean] in H. apply andb_prop in H. destruct H as [H1 H2].
  apply andb_prop in H1. destruct H1 as [H0 H1]. split; [|exact H2].
  intros [-> | ->]; discriminate.
Qed.

Lemma clean_split : forall n m k k', clean n = true -> clean m = true -> ends k -> ends k' ->
  n ++ k = m ++ k' -> n = m /\ k = k'.
Proof.
  induction n as [|c n IH]; intros [|d m] k k' Hn Hm Hk Hk' E; cbn [append] in E.
  - auto.
  - subst k. destruct (clean_cons _ _ Hm) as [H _]. cbn in Hk. contradiction.
  - subst k'. destruct (clean_cons _ _ Hn) as [H _]. cbn in Hk'. contradiction.
  - injection E as -> E. apply clean_cons in Hn. apply clean_cons in Hm.
    destruct (IH m k k' (proj2 Hn) (proj2 Hm) Hk Hk' E) as [-> ->]. auto.
Qed.

(** Every type has an identifier for its head. *)
Lemma head_identifier : forall t, well_named t -> identifier (head t).
Proof.
  intros t H. destruct H; cbn [head]; try assumption; split; try discriminate; reflexivity.
Qed.

Lemma parts_named : forall t, well_named t -> Forall well_named (parts t).
Proof. intros t H. destruct H; cbn [parts]; auto. Qed.

(** Types with the same heads throughout. *)
Inductive heads : ty -> ty -> Prop :=
| heads_intro : forall t u, head t = head u -> Forall2 heads (parts t) (parts u) -> heads t u.

Lemma start : forall t k, well_named t -> exists c s, asm_name t ++ k = String c s /\ ~ sep c.
Proof.
  intros t k H. rewrite asm_name_parts. destruct (head_identifier t H) as [N C].
  destruct (head t) as [|c s]; [congruence|]. apply clean_cons in C.
  cbn [append]. eexists _, _. split; [reflexivity|apply C].
Qed.

Definition splits (t : ty) : Prop := well_named t -> forall u k k', well_named u -> stop k -> stop k' ->
  asm_name t ++ k = asm_name u ++ k' -> heads t u /\ k = k'.

Lemma join_cons : forall t ts k, join "." (names (t :: ts)) ++ k =
  asm_name t ++ match ts with [] => k | _ => "." ++ join "." (names ts) ++ k end.
Proof.
  intros t ts k. destruct ts as [|t' ts].
  - reflexivity.
  - change (join "." (names (t :: t' :: ts))) with (asm_name t ++ "." ++ join "." (names (t' :: ts))).
    rewrite !app_assoc_s. reflexivity.
Qed.

Lemma list_splits : forall ts, Forall splits ts -> Forall well_named ts ->
  forall us k k', ts <> [] -> us <> [] -> Forall well_named us -> stop k -> stop k' ->
  join "." (names ts) ++ ("$" ++ k) = join "." (names us) ++ ("$" ++ k') ->
  Forall2 heads ts us /\ k = k'.
Proof.
  induction 1 as [|t ts Ht Hts IH]; intros W us k k' N1 N2 Wu Sk Sk' E; [congruence|].
  destruct us as [|u us]; [congruence|]. inversion W as [|? ? Wt Wts]; subst.
  inversion Wu as [|? ? Wu1 Wus]; subst.
  rewrite !join_cons in E.
  match type of E with _ ++ ?a = _ ++ ?b =>
    assert (S1 : stop a) by (destruct ts; [apply stop_dollar, Sk|left; reflexivity]);
    assert (S2 : stop b) by (destruct us; [apply stop_dollar, Sk'|left; reflexivity])
  end.
  destruct (Ht Wt u _ _ Wu1 S1 S2 E) as [Hh Hk]. clear E S1 S2.
  destruct ts as [|t' ts]; destruct us as [|u' us].
  - injection Hk as Hk. split; [constructor; [exact Hh|constructor]|exact Hk].
  - discriminate.
  - discriminate.
  - injection Hk as Hk.
    destruct (IH Wts (u' :: us) k k') as [H1 H2]; try assumption; try discriminate.
    split; [constructor; assumption|exact H2].
Qed.

Lemma splits_parts : forall t, Forall splits (parts t) -> splits t.
Proof.
  intros t IH Wt u k k' Wu Sk Sk' E. rewrite !asm_name_parts, !app_assoc_s in E.
  destruct (head_identifier t Wt) as [_ Ct]. destruct (head_identifier u Wu) as [_ Cu].
  assert (Et : ends (match parts t with [] => "" | _ => "$" ++ join "." (names (parts t)) ++ "$" end ++ k)).
  { destruct (parts t); cbn [append]; [apply stop_ends, Sk|right; reflexivity]. }
  assert (Eu : ends (match parts u with [] => "" | _ => "$" ++ join "." (names (parts u)) ++ "$" end ++ k')).
  { destruct (parts u); cbn [append]; [apply stop_ends, Sk'|right; reflexivity]. }
  destruct (clean_split _ _ _ _ Ct Cu Et Eu E) as [Eh Er]. clear E Et Eu.
  assert (Wtp := parts_named t Wt). assert (Wup := parts_named u Wu).
  assert (No : forall t' ts k1 k2, well_named t' -> stop k1 -> k1 = ("$" ++ join "." (names (t' :: ts)) ++ "$") ++ k2 -> False).
  { intros t' ts k1 k2 W S ->. cbn [append stop] in S. destruct S as [S|[_ S]]; [discriminate|].
    rewrite app_assoc_s, join_cons in S. destruct (start t' (match ts with [] => "$" ++ k2 | _ => "." ++ join "." (names ts) ++ ("$" ++ k2) end) W) as [c [s [E N]]].
    rewrite E in S. cbn in S. contradiction. }
  destruct (parts t) as [|t' ts] eqn:Pt; destruct (parts u) as [|u' us] eqn:Pu.
  - split; [|exact Er]. constructor; [exact Eh|]. rewrite Pt, Pu. constructor.
  - cbn [append] in Er. destruct (No u' us k k'); auto. inversion Wup; assumption.
  - cbn [append] in Er. destruct (No t' ts k' k); auto. inversion Wtp; assumption.
  - cbn [append] in Er. injection Er as Er. rewrite !app_assoc_s in Er.
    destruct (list_splits (t' :: ts) IH Wtp (u' :: us) k k') as [H1 H2]; try assumption; try discriminate.
    split; [|exact H2]. constructor; [exact Eh|]. rewrite Pt, Pu. exact H1.
Qed.

Lemma all_split : forall t, splits t.
Proof.
  induction t using ty_induct; apply splits_parts; cbn [parts]; auto.
Qed.

Lemma heads_alike : forall t, well_named t -> forall u, well_named u -> heads t u -> alike t u.
Proof.
  assert (L : forall ts, Forall (fun t => well_named t -> forall u, well_named u -> heads t u -> alike t u) ts ->
    Forall well_named ts -> forall us, Forall well_named us -> Forall2 heads ts us -> Forall2 alike ts us).
  { induction 1 as [|t ts Ht Hts IH]; intros W us Wu F; inversion F; subst; [constructor|].
    inversion W; subst. inversion Wu; subst. constructor; auto. }
  assert (R : forall n, ~ In n reserved -> forall m, In m reserved -> n = m -> False) by (intros; subst; auto).
  assert (In "array" reserved /\ In "fn" reserved /\ In "int" reserved /\ In "bytes" reserved /\ In "bool" reserved
    /\ In "string" reserved /\ In "nothing" reserved /\ In "pointer" reserved /\ In "T" reserved) as K
    by (unfold reserved; cbn; tauto).
  destruct K as [K1 [K2 [K3 [K4 [K5 [K6 [K7 [K8 K9]]]]]]]].
  induction t as [d n ts IH|d n ts IH|i g ps r IH IHr| | | | | | |e IH|p] using ty_induct; intros W u Wu H;
    inversion H as [? ? Eh F]; subst; clear H; inversion W; subst; inversion Wu; subst; cbn [head parts] in Eh, F;
    try discriminate Eh;
    try (match goal with Hr : ~ In ?n reserved |- _ => exfalso; eapply (R n Hr); [|first [exact Eh|symmetry; exact Eh]]; assumption end);
    try (constructor; fail).
  - subst. eapply alike_named; [reflexivity|reflexivity|]. eapply L; eassumption.
  - subst. eapply alike_named; [reflexivity|reflexivity|]. eapply L; eassumption.
  - subst. eapply alike_named; [reflexivity|reflexivity|]. eapply L; eassumption.
  - subst. eapply alike_named; [reflexivity|reflexivity|]. eapply L; eassumption.
  - apply alike_fun. eapply L; eassumption.
  - inversion F; subst. constructor. apply IH; assumption.
Qed.

Lemma alike_name : forall t u, alike t u -> asm_name t = asm_name u.
Proof.
  assert (L : forall ts, Forall (fun t => forall u, alike t u -> asm_name t = asm_name u) ts ->
    forall us, Forall2 alike ts us -> names ts = names us).
  { induction 1 as [|t ts Ht Hts IH]; intros us F; inversion F; subst; [reflexivity|].
    change (names (t :: ts)) with (asm_name t :: names ts).
    change (names (y :: l')) with (asm_name y :: names l'). f_equal; auto. }
  assert (M : forall ts us : list ty, Forall2 alike ts us -> (ts = [] <-> us = [])).
  { intros ts us F. inversion F; split; congruence. }
  induction t as [d n ts IH|d n ts IH|i g ps r IH IHr| | | | | | |e IH|p] using ty_induct; intros u H;
    inversion H as [? ? n' ts' us' E1 E2 F|? ? ? ? ? ? ? ? F|? ? F| | | | | | |]; subst; try reflexivity;
    try (destruct u; discriminate E2); try discriminate E1.
  - inversion E1; subst. destruct u; inversion E2; subst; rewrite !asm_name_parts; cbn [head parts];
      rewrite (L _ IH _ F); destruct ts', us'; inversion F; reflexivity.
  - inversion E1; subst. destruct u; inversion E2; subst; rewrite !asm_name_parts; cbn [head parts];
      rewrite (L _ IH _ F); destruct ts', us'; inversion F; reflexivity.
  - rewrite !asm_name_parts. cbn [head parts]. rewrite (L _ IH _ F). destruct ps, qs; inversion F; reflexivity.
  - cbn [asm_name]. rewrite (IH _ F). reflexivity.
Qed.

Lemma same_name_alike : forall t u, well_named t -> well_named u -> (asm_name t = asm_name u <-> alike t u).
Proof.
  intros t u Wt Wu. split; [|apply alike_name].
  intro E. apply heads_alike; [exact Wt|exact Wu|].
  destruct (all_split t Wt u "" "" Wu I I) as [H _]; [|exact H]. rewrite !app_nil_s. exact E.
Qed.

Definition tail (ps : list ty) : string := fold_right (fun p s => "." ++ asm_name p ++ s) "" ps.

Lemma tail_splits : forall ps qs, Forall well_named ps -> Forall well_named qs ->
  tail ps = tail qs -> Forall2 alike ps qs.
Proof.
  induction ps as [|p ps IH]; intros [|q qs] Wp Wq E; cbn [tail fold_right] in E; try discriminate; [constructor|].
  inversion Wp; subst. inversion Wq; subst. injection E as E. fold (tail ps) in E. fold (tail qs) in E.
  assert (S : forall l, stop (tail l)) by (intros [|x l]; [exact I|left; reflexivity]).
  destruct (all_split p H1 q _ _ H3 (S ps) (S qs) E) as [A B].
  constructor; [apply heads_alike; assumption|auto].
Qed.

Lemma alike_tail : forall ps qs, Forall2 alike ps qs -> tail ps = tail qs.
Proof.
  induction 1 as [|p q ps qs H F IH]; [reflexivity|]. cbn [tail fold_right].
  rewrite (alike_name _ _ H). fold (tail ps). fold (tail qs). rewrite IH. reflexivity.
Qed.

Lemma labels_exactly : forall n m ps qs, identifier n -> identifier m -> n <> "main" -> m <> "main" ->
  Forall well_named ps -> Forall well_named qs ->
  (fn_label false n ps = fn_label false m qs <-> n = m /\ Forall2 alike ps qs).
Proof.
  intros n m ps qs Hn Hm Nn Nm Wp Wq. unfold fn_label.
  destruct (String.eqb_spec n "main"); [contradiction|]. destruct (String.eqb_spec m "main"); [contradiction|].
  fold (tail ps). fold (tail qs). split.
  - intro E. cbn [append] in E. injection E as E.
    assert (S : forall l, ends (tail l)) by (intros [|x l]; [exact I|left; reflexivity]).
    destruct (clean_split n m _ _ (proj2 Hn) (proj2 Hm) (S ps) (S qs) E) as [-> Et].
    split; [reflexivity|apply tail_splits; assumption].
  - intros [-> F]. rewrite (alike_tail _ _ F). reflexivity.
Qed.

Lemma concrete_alike : forall k t, concrete k t -> forall u, concrete k u -> alike t u -> same t u.
Proof.
  intro k.
  assert (L : forall ts, Forall (fun t => concrete k t -> forall u, concrete k u -> alike t u -> same t u) ts ->
    Forall (concrete k) ts -> forall us, Forall (concrete k) us -> Forall2 alike ts us -> Forall2 same ts us).
  { induction 1 as [|t ts Ht Hts IH]; intros W us Wu F; inversion F; subst; [constructor|].
    inversion W; subst. inversion Wu; subst. constructor; auto. }
  induction t as [d n ts IH|d n ts IH|i g ps r IH IHr| | | | | | |e IH|p] using ty_induct; intros C u Cu H;
    inversion C; subst; inversion H as [? ? n' ts' us' E1 E2 F| |? ? F| | | | | | |]; subst;
    try discriminate E1; try constructor.
  - inversion E1; subst. destruct u; inversion E2; subst; inversion Cu; subst; [|congruence].
    constructor. eapply L; eassumption.
  - inversion E1; subst. destruct u; inversion E2; subst; inversion Cu; subst; [congruence|].
    constructor. eapply L; eassumption.
  - inversion Cu; subst. auto.
Qed.

Lemma labels_differ : forall k n m ps qs, identifier n -> identifier m -> n <> "main" -> m <> "main" ->
  Forall well_named ps -> Forall well_named qs -> Forall (concrete k) ps -> Forall (concrete k) qs ->
  fn_label false n ps = fn_label false m qs -> n = m /\ Forall2 same ps qs.
Proof.
  intros k n m ps qs Hn Hm Nn Nm Wp Wq Cp Cq E.
  apply labels_exactly in E; try assumption. destruct E as [-> F]. split; [reflexivity|].
  clear -F Cp Cq. induction F; [constructor|]. inversion Cp; subst. inversion Cq; subst.
  constructor; [eapply concrete_alike; eassumption|auto].
Qed.
