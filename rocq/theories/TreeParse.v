(** Writing templates down: expressions and statements. *)
From Verif Require Import Base Utf8 Ext Errors Syntax SearchSpec SyntaxSpec Value Ast Lexer LexSpec TrimProof LexProof Wp GrammarSpec LayoutSpec
  DecimalSpec DecimalProof LiteralSpec LitProof Meaning LayoutProof Props2 Wrap Literal Trailing Concat Props10 TreeSpec TreeLex TreePrint.

Section TreeParse.
Context `{X : Ext}.
Hypothesis HX : ext_ascii X.
Notation sx := default_syntax.

(** Tokens that have given senses. *)
Definition has (source : str) (ts : list tok) (ks : list (token * str)) : Prop := map (sense source) ts = ks.
Lemma has_nil source ts : has source ts [] -> ts = [].
Proof. now destruct ts. Qed.
Lemma has_cons source ts t w ks : has source ts ((t, w) :: ks) -> exists sp ts', ts = (t, sp) :: ts' /\ (is_delimiter t = false -> txt source sp = w) /\ has source ts' ks.
Proof.
  unfold has. destruct ts as [|[t' sp] ts]; [discriminate|]. cbn [map]. unfold sense at 1. cbn [fst snd]. intros H. injection H as -> H1 H2.
  exists sp, ts. split; [reflexivity|]. split; [|exact H2]. intros E. now rewrite E in H1.
Qed.
Lemma has_app source ts a b : has source ts (a ++ b) -> exists ta tb, ts = ta ++ tb /\ has source ta a /\ has source tb b.
Proof.
  unfold has. revert ts. induction a as [|k a IH]; intros ts H; [exists [], ts; auto|]. destruct ts as [|t ts]; [discriminate|]. cbn [map app] in H. injection H as H1 H2.
  destruct (IH ts H2) as (ta & tb & -> & Ea & Eb). exists (t :: ta), tb. cbn [map]. rewrite H1, Ea. auto.
Qed.
Ltac hs := repeat match goal with
  | H : has _ ?t [] |- _ => apply has_nil in H; subst t
  | H : has _ _ (_ :: _) |- _ => let sp := fresh "sp" in let b := fresh "ts" in let E := fresh "Et" in apply has_cons in H as (sp & b & -> & E & H); cbn [is_delimiter] in E; try specialize (E eq_refl)
  | H : has _ _ (_ ++ _) |- _ => let a := fresh "ta" in let b := fresh "tb" in let H' := fresh "Hs" in apply has_app in H as (a & b & -> & H' & H)
  end.

(** ** Words *)
Lemma wordy_char p t (b : byte) ks : ~ In b [x7b; x7d; x25; x23] -> (byte_N b < 128)%N -> t <> TWhitespace -> lexeme p t [b] -> wordy (after_tok p t) ks -> wordy p ((t, [b]) :: ks).
Proof.
  intros Hb Hl Hn Hx Hw. constructor; auto.
  - apply asciib_valid. unfold asciib. cbn. rewrite andb_true_r. now apply N.ltb_lt.
  - intros r. cbn [app]. destruct (Byte.eqb b x2d) eqn:E.
    + apply Byte.byte_dec_bl in E as ->. apply nodel_minus. cbn. intuition discriminate.
    + apply nodel_first. intros Hi. cbn in Hi. destruct Hi as [Hi|[Hi|[Hi|[Hi|[Hi|[]]]]]]; try (apply Hb; cbn; tauto). subst b. discriminate E.
Qed.
Lemma shape_nodel n r : ident_shape n -> nodel (n ++ r).
Proof.
  intros Hi. destruct Hi as (c & t & Ec & (Hs & Hd & Hw & Ho) & _). destruct n as [|b n]; [discriminate Ec|]. cbn [app]. apply nodel_first. intros Hb.
  assert (Hl : low b) by (cbn in Hb; repeat destruct Hb as [<-|Hb]; try reflexivity; destruct Hb).
  destruct (first_low b n Hl) as (t' & Et). rewrite Et in Ec. injection Ec as <- <-.
  unfold word_start in Hs. apply orb_prop in Hs as [Hs|Hs].
  - apply N.eqb_eq in Hs. clear - Hb Hs. cbn in Hb. repeat destruct Hb as [<-|Hb]; try discriminate Hs. destruct Hb.
  - destruct HX as (_ & H & _). pose proof (H _ Hl Hs) as H1. clear - Hb H1. cbn in Hb. repeat destruct Hb as [<-|Hb]; try discriminate H1. destruct Hb.
Qed.
Lemma wordy_name p n ks : a_name n -> wordy true ks -> wordy p ((TIdent, n) :: ks).
Proof.
  intros (V & Hi & Hr) Hw. constructor; auto; [|discriminate|now split].
  intros r. now apply shape_nodel.
Qed.
Lemma wordy_kw p w ks : In w reserved -> wordy p ks -> wordy p ((TKeyword, w) :: ks).
Proof.
  intros Hr Hw.
  assert (S : ident_shape w /\ asciib w = true).
  { destruct HX as (H1 & _ & H3). cbn in Hr.
    repeat (destruct Hr as [<-|Hr]; [split; [|reflexivity]; match goal with |- ident_shape ?s => unfold ident_shape; let c := eval vm_compute in (chars s) in change (chars s) with c end;
      eexists _, _; split; [reflexivity|]; split;
        [unfold ident_first, word_start; rewrite H1 by reflexivity; rewrite orb_true_r; repeat split; intros K; cbn in K; repeat (destruct K as [K|K]; [discriminate K|]); exact K
        |repeat (constructor; [unfold word_char; rewrite H3 by reflexivity; reflexivity|]); constructor]|]). destruct Hr. }
  destruct S as (S & A). constructor; auto; [now apply asciib_valid| |discriminate|now split]. intros r. now apply shape_nodel.
Qed.
Lemma digit_start b r : ascii_digit (byte_N b) = true -> nodel (b :: r).
Proof. intros H. apply nodel_first. now apply digit_low_first. Qed.
Lemma wordy_number w ks : a_number w -> wordy false ks -> wordy false ((TNumber, w) :: ks).
Proof.
  intros (b & r & -> & Hd & Hr) Hw. assert (Hn : Forall (fun b => number_char (byte_N b) = true) (b :: r)) by (constructor; auto; now apply digit_number).
  pose proof (number_low _ Hn) as Hl. constructor; auto; [now apply asciib_valid, low_asciib|intros r'; cbn [app]; now apply digit_start|discriminate|].
  split; [reflexivity|]. exists (byte_N b), (map byte_N r). split; [now apply low_chars_all|]. split; [exact Hd|]. now apply Forall_map.
Qed.
Lemma wordy_index w ks : w <> [] -> Forall decimal_digit w -> wordy true ks -> wordy true ((TIndex, w) :: ks).
Proof.
  intros Hne F Hw.
  assert (F' : Forall (fun b => ascii_digit (byte_N b) = true) w). { revert F. apply Forall_impl. intros b Hb. unfold decimal_digit in Hb. unfold ascii_digit. rewrite andb_true_iff, !N.leb_le. lia. }
  assert (L : Forall low w). { revert F'. apply Forall_impl. intros b Hb. now apply digit_low_first. }
  constructor; auto; [now apply asciib_valid, low_asciib| |discriminate|].
  - intros r. destruct w as [|b w]; [now destruct Hne|]. inversion F'; subst. now apply digit_start.
  - split; [reflexivity|]. split; [exact Hne|]. rewrite low_chars_all by exact L. now apply Forall_map.
Qed.

(** ** Strings *)
Lemma last_cons {A} (a : A) l d : last (a :: l) d = last l a.
Proof. revert a d. induction l as [|b l IH]; intros a d; [reflexivity|]. change (last (a :: b :: l) d) with (last (b :: l) d). now rewrite !IH. Qed.
Lemma spells_body_tail cs s tail : spells cs s -> forall prev, str_body_ok (last cs prev) tail -> str_body_ok prev (cs ++ tail).
Proof.
  induction 1 as [|c cs0 s0 Hc Hn H IH|cs0 s0 H IH|cs0 s0 H IH|cs0 s0 H IH|cs0 s0 H IH|cs0 s0 H IH]; intros prev Hp; rewrite ?last_cons in Hp; cbn [app str_body_ok]; [exact Hp|..].
  1:{ assert (H1 : c <> 10%N /\ c <> 13%N /\ c <> 34%N /\ c <> 92%N) by (repeat split; intros ->; apply Hn; cbn; auto).
      split; [unfold str_char_ok; intuition|]. now apply IH. }
  all: (split; [unfold str_char_ok; repeat split; intros; try discriminate; auto|]); (split; [unfold str_char_ok; repeat split; intros; try discriminate; auto|]); now apply IH.
Qed.
Lemma unescaped_bare cs s : unescaped cs s -> unescaped (cs ++ [34%N]) s.
Proof. induction 1; cbn [app]; try (constructor; auto; fail). constructor. constructor. Qed.
(** Every text has a literal (if it ends in a backslash, an undocumented one). *)
Lemma string_word s : valid_utf8 s -> exists w, string_lit w s /\ forall p ks, wordy p ks -> wordy p ((TString, w) :: ks).
Proof.
  intros V. destruct (spelling_exists s V) as (cs & Hcs).
  set (tail := if N.eqb (last cs 34%N) 92 then [34%N] else []).
  pose proof (spells_scalar _ _ Hcs) as Hsc.
  assert (F : Forall scalar (cs ++ tail)). { apply Forall_app. split; [exact Hsc|]. unfold tail. destruct (N.eqb _ _); repeat constructor; unfold scalar; lia. }
  assert (B : str_body_ok 34 (cs ++ tail)).
  { apply (spells_body_tail _ _ _ Hcs). unfold tail. destruct (N.eqb_spec (last cs 34%N) 92) as [->|N]; [|exact N]. cbn. unfold str_char_ok. repeat split; try discriminate. }
  assert (U : unescaped (cs ++ tail) s).
  { unfold tail. apply spells_unescaped in Hcs. destruct (N.eqb _ _); [now apply unescaped_bare|now rewrite app_nil_r]. }
  exists (quoted (cs ++ tail)).
  assert (E : quoted (cs ++ tail) = flat_map encode (34 :: (cs ++ tail) ++ [34])%N) by (unfold quoted; cbn [flat_map]; now rewrite (flat_map_app _ (cs ++ tail))).
  assert (F2 : Forall scalar (34 :: (cs ++ tail) ++ [34])%N) by (constructor; [unfold scalar; lia|]; apply Forall_app; split; auto; constructor; [unfold scalar; lia|constructor]).
  assert (C : chars (quoted (cs ++ tail)) = (34 :: (cs ++ tail) ++ [34])%N) by (rewrite E; now apply chars_flat_map).
  split; [exists (cs ++ tail); auto|]. intros p ks Hw. constructor; auto.
  - rewrite E. eexists. eauto.
  - intros r. apply nodel_first. cbn. intuition discriminate.
  - discriminate.
  - exists (cs ++ tail). auto.
Qed.

(** ** Literals and paths *)
Lemma natural_word n : exists w, natural n w /\ w <> [] /\ Forall decimal_digit w.
Proof. exists (show_N n). pose proof (show_natural n) as H. split; [exact H|]. destruct H as (H1 & H2 & _). auto. Qed.
Definition neg_tokens (neg : bool) : list (token * str) := if neg then [(TMinus, s2b "-")] else [].
Lemma neg_wordy neg ks : wordy false ks -> wordy false (neg_tokens neg ++ ks).
Proof. intros H. destruct neg; [|exact H]. apply (wordy_char false TMinus x2d); [cbn; intuition discriminate|reflexivity|discriminate|reflexivity|exact H]. Qed.
Lemma number_of_natural n w : natural n w -> a_number w.
Proof. intros H. apply natural_text in H as (H & _). exact H. Qed.
Definition base_ok (ks : list (token * str)) (a : patom) : Prop :=
  forall source ts, has source ts ks -> exists b, g_base source ts b /\ bare_base source b = a.
Lemma number_base w neg v : number_lit w neg v -> base_ok (neg_tokens neg ++ [(TNumber, w)]) (PLit v).
Proof.
  intros Hv source ts H. destruct neg; cbn [neg_tokens app] in H; hs.
  - eexists. split; [apply gb_minus; rewrite Et0; exact Hv|reflexivity].
  - eexists. split; [apply gb_num; rewrite Et; exact Hv|reflexivity].
Qed.
Lemma literal_words v : a_literal v -> exists ks, wordy false ks /\ (number_first (PAtom (PLit v)) = false -> wordy true ks) /\ base_ok ks (PLit v).
Proof.
  intros [b|z Hz|s V|s neg f Hs Hf].
  - exists [(TKeyword, if b then s2b "true" else s2b "false")].
    assert (R : In (if b then s2b "true" else s2b "false") reserved) by (destruct b; cbn; tauto).
    split; [apply wordy_kw; auto; constructor|]. split; [intros _; apply wordy_kw; auto; constructor|].
    intros source ts H. hs. eexists. destruct b; [split; [now apply gb_true|reflexivity]|split; [now apply gb_false|reflexivity]].
  - destruct (natural_word (Z.to_N (Z.abs z))) as (w & Hn & _). set (neg := (z <? 0)%Z). exists (neg_tokens neg ++ [(TNumber, w)]).
    split; [apply neg_wordy, wordy_number; [eapply number_of_natural; eauto|constructor]|]. split; [discriminate|].
    apply number_base. constructor. split; [exact Hz|]. do 3 right. destruct (natural_text _ _ Hn) as (_ & H2 & H3). rewrite Z2N.id in H2 by lia.
    exists (Z.abs z). split; [exact H3|]. split; [exact H2|]. unfold neg. destruct (Z.ltb_spec z 0); cbn; lia.
  - destruct (string_word s V) as (w & Hl & Hw). exists [(TString, w)]. split; [apply Hw; constructor|]. split; [intros _; apply Hw; constructor|].
    intros source ts H. hs. eexists. split; [apply gb_str; rewrite Et; exact Hl|reflexivity].
  - exists (neg_tokens neg ++ [(TNumber, s)]). split; [apply neg_wordy, wordy_number; [exact Hs|constructor]|]. split; [discriminate|]. now apply number_base.
Qed.
Lemma steps_words rest : Forall a_step rest -> exists ks, wordy true ks /\
  forall source ts, has source ts ks -> exists ms, g_members source ts ms /\ map (bare_step source) ms = rest.
Proof.
  induction 1 as [|[o k] rest Hs _ (ks & Hw & Hg)].
  - exists []. split; [constructor|]. intros source ts H. hs. exists []. split; [constructor|reflexivity].
  - assert (A : exists w t, (forall ks, wordy true ks -> wordy true ((t, w) :: ks)) /\ forall source ts, has source ts [(t, w)] -> exists a, g_access source ts a /\
               (match a with AIndex i _ => KIndex i | AKey id => KName (word source (id_span id)) end) = k).
    { destruct k as [n|i]; cbn in Hs.
      - exists n, TIdent. split; [intros; now apply wordy_name|]. intros source ts H. hs. eexists. split; [constructor|]. cbn [id_span]. f_equal. exact Et.
      - destruct (natural_word i) as (w & Hn & H1 & H2). exists w, TIndex. split; [intros; now apply wordy_index|]. intros source ts H. hs. eexists. split; [constructor|reflexivity].
        rewrite Et. destruct (natural_text _ _ Hn) as (_ & H3 & _). repeat split; auto. intros K. rewrite Forall_forall in H2. apply H2 in K. unfold decimal_digit in K. cbn in K. lia. }
    destruct A as (w & t & Hwa & Ga).
    exists ((if o then (TQuestionDot, s2b "?.") else (TDot, s2b ".")) :: [(t, w)] ++ ks). split.
    + destruct o.
      * constructor; [now apply asciib_valid| |discriminate|reflexivity|]; [intros r; apply nodel_first; cbn; intuition discriminate|]. apply Hwa, Hw.
      * apply (wordy_char true TDot x2e); [cbn; intuition discriminate|reflexivity|discriminate|reflexivity|]. apply Hwa, Hw.
    + intros source ts H. destruct o.
      * apply has_cons in H as (sp & ts1 & -> & Et & H). apply has_app in H as (ta & tb & -> & H1 & H2). destruct (Ga _ _ H1) as (a & G1 & E1). destruct (Hg _ _ H2) as (ms & G2 & E2).
        eexists. split; [apply gm_question; eauto|]. cbn [map]. rewrite E2. unfold bare_step. cbn [mb_op mb_access]. now rewrite E1.
      * apply has_cons in H as (sp & ts1 & -> & Et & H). apply has_app in H as (ta & tb & -> & H1 & H2). destruct (Ga _ _ H1) as (a & G1 & E1). destruct (Hg _ _ H2) as (ms & G2 & E2).
        eexists. split; [apply gm_dot; eauto|]. cbn [map]. rewrite E2. unfold bare_step. cbn [mb_op mb_access]. now rewrite E1.
Qed.
Lemma atom_words a : a_atom a -> exists ks, wordy false ks /\ (number_first (PAtom a) = false -> wordy true ks) /\ base_ok ks a.
Proof.
  destruct a as [n rest|v]; intros H; [|now apply literal_words]. destruct H as (Hn & Hr). destruct (steps_words rest Hr) as (ks & Hw & Hg).
  exists ((TIdent, n) :: ks). split; [now apply wordy_name|]. split; [intros _; now apply wordy_name|].
  intros source ts H. hs. destruct (Hg _ _ H) as (ms & G & E). eexists. split; [constructor; exact G|]. cbn [bare_base mb_access access_span id_span]. rewrite E. f_equal. exact Et.
Qed.
Lemma args_words l : l <> [] -> Forall a_atom l -> exists ks, wordy false ks /\
  forall source ts, has source ts ks -> exists bs, g_args source ts bs /\ map (bare_base source) bs = l.
Proof.
  intros Hne F. induction F as [|a l Ha F IH]; [now destruct Hne|]. destruct (atom_words a Ha) as (ks & Hw & _ & Hg). destruct l as [|a' l].
  - exists ks. split; [exact Hw|]. intros source ts H. destruct (Hg _ _ H) as (b & G & E). exists [b]. split; [now constructor|]. cbn. now rewrite E.
  - destruct (IH ltac:(discriminate)) as (ks' & Hw' & Hg'). exists (ks ++ (TComma, s2b ",") :: ks'). split.
    + apply wordy_app; [exact Hw|]. apply (wordy_char _ TComma x2c); [cbn; intuition discriminate|reflexivity|discriminate|reflexivity|exact Hw'].
    + intros source ts H. hs. destruct (Hg _ _ Hs) as (b & G & E). destruct (Hg' _ _ H) as (bs & G' & E'). exists (b :: bs). split; [now constructor|]. cbn [map]. now rewrite E, E'.
Qed.
Lemma expr_words e : a_expr e -> exists ks, wordy false ks /\ (number_first e = false -> wordy true ks) /\
  forall source ts, has source ts ks -> exists e', g_expr source ts e' /\ bare_expr source e' = e.
Proof.
  induction e as [a|recv IH name args]; cbn [a_expr]; intros H.
  - destruct (atom_words a H) as (ks & H1 & H2 & Hg). exists ks. split; [exact H1|]. split; [exact H2|]. intros source ts Ht.
    destruct (Hg _ _ Ht) as (b & G & E). exists (EBase b). split; [now constructor|]. cbn. now rewrite E.
  - destruct H as (Hr & Hn & Ha). destruct (IH Hr) as (ks & H1 & H2 & Hg).
    assert (P : forall p ks, wordy true ks -> wordy p ((TPipe, s2b "|") :: (TIdent, name) :: ks)).
    { intros p ks0 H0. apply (wordy_char p TPipe x7c); [cbn; intuition discriminate|reflexivity|discriminate|reflexivity|]. now apply wordy_name. }
    destruct args as [l|].
    + destruct Ha as (Hne & Hl). destruct (args_words l Hne Hl) as (ks' & H3 & Hg').
      assert (P' : forall p, wordy p ((TPipe, s2b "|") :: (TIdent, name) :: (TColon, s2b ":") :: ks')).
      { intros p. apply P. apply (wordy_char _ TColon x3a); [cbn; intuition discriminate|reflexivity|discriminate|reflexivity|exact H3]. }
      eexists (ks ++ (TPipe, s2b "|") :: (TIdent, name) :: (TColon, s2b ":") :: ks'). split; [now apply wordy_app|].
      split; [intros E; apply wordy_app; [now apply H2|apply P']|].
      intros source ts H. hs. destruct (Hg _ _ Hs) as (e' & G & E). destruct (Hg' _ _ H) as (bs & G' & E').
      eexists. split; [apply ge_call_args; eauto|]. cbn [bare_expr id_span a_values]. rewrite E, E'. f_equal. exact Et0.
    + eexists (ks ++ [(TPipe, s2b "|"); (TIdent, name)]). split; [apply wordy_app; auto; apply P; constructor|].
      split; [intros E; apply wordy_app; [now apply H2|apply P; constructor]|].
      intros source ts H. hs. destruct (Hg _ _ Hs) as (e' & G & E).
      eexists. split; [apply ge_call; eauto|]. cbn [bare_expr id_span]. rewrite E. f_equal. exact Et0.
Qed.

(** ** Statements *)
Definition reads_as (ks : list (token * str)) (p : list pstmt) : Prop :=
  forall source ts, has source ts ks -> exists l, g_scope source ts l /\ bare source l = p.
Definition written (p : list pstmt) : Prop := exists s ks, writes_as s ks /\ reads_as ks p.
Lemma written_app p q : written p -> written q -> written (p ++ q).
Proof.
  intros (s & ks & H1 & H2) (s' & ks' & H1' & H2'). exists (s ++ s'), (ks ++ ks'). split; [now apply writes_app|].
  intros source ts H. hs. destruct (H2 _ _ Hs) as (l & G & E). destruct (H2' _ _ H) as (l' & G' & E').
  exists (l ++ l'). split; [now apply scope_app|]. unfold bare in *. rewrite map_app, E, E'. reflexivity.
Qed.
Definition block (ks : list (token * str)) : list (token * str) := (TBeginBlock, []) :: ks ++ [(TEndBlock, [])].
Lemma writes_block ks : wordy false ks -> writes_as (tag_text BeginBlockK EndBlockK ks) (block ks).
Proof. intros H. apply (writes_tag HX BeginBlockK EndBlockK ks); auto. Qed.
Lemma has_block source ts ks : has source ts (block ks) -> exists i, tag_block i ts /\ has source i ks.
Proof. unfold block. intros H. hs. exists ta. split; [|exact Hs]. eexists _, _. reflexivity. Qed.
Lemma one_stmt source ts s : g_stmt source ts s -> g_scope source ts [s].
Proof. intros H. rewrite <- (app_nil_r ts). apply gsc_stmt; [exact H|constructor]. Qed.
Lemma has_kw source ts s : has source ts [(TKeyword, s2b s)] -> kw source s ts.
Proof. intros H. hs. eexists. split; [reflexivity|exact Et]. Qed.
Lemma kw_wordy p s ks : In (s2b s) reserved -> wordy p ks -> wordy p ([(TKeyword, s2b s)] ++ ks).
Proof. intros. now apply wordy_kw. Qed.
Lemma writes_kw s : In (s2b s) reserved -> writes_as (tag_text BeginBlockK EndBlockK [(TKeyword, s2b s)]) (block [(TKeyword, s2b s)]).
Proof. intros H. apply writes_block. apply wordy_kw; [exact H|constructor]. Qed.
Lemma has_kw_tag source ts s : has source ts (block [(TKeyword, s2b s)]) -> exists k, kw source s k /\ tag_block k ts.
Proof. intros H. apply has_block in H as (i & T & Hi). apply has_kw in Hi. eauto. Qed.
Ltac res := cbn; tauto.

(** The words after [if], with the negation. *)
Lemma cond_words (neg : bool) c : a_expr c -> exists ks, wordy false ks /\ forall source ts, has source ts ks -> exists e, g_cond source ts neg e /\ bare_expr source e = c.
Proof.
  intros H. destruct (expr_words c H) as (ks & H1 & _ & Hg). destruct neg.
  - exists ([(TKeyword, s2b "not")] ++ ks). split; [apply kw_wordy; [res|exact H1]|]. intros source ts Ht. apply has_app in Ht as (ta & tb & -> & Hk & Ht).
    destruct (Hg _ _ Ht) as (e & G & E). exists e. split; [|exact E]. constructor; [now apply has_kw|exact G].
  - exists ks. split; [exact H1|]. intros source ts Ht. destruct (Hg _ _ Ht) as (e & G & E). exists e. split; [now constructor|exact E].
Qed.
Lemma written_if neg c thn els : a_expr c -> written thn -> match els with Some l => written l | None => True end -> written [PIf neg c thn els].
Proof.
  intros Hc (s & ks & W & R) He. destruct (cond_words neg c Hc) as (kc & Hw & Hg).
  assert (Wt : writes_as (tag_text BeginBlockK EndBlockK ([(TKeyword, s2b "if")] ++ kc)) (block ([(TKeyword, s2b "if")] ++ kc))).
  { apply writes_block, kw_wordy; [res|exact Hw]. }
  assert (E : exists s' ks', writes_as s' ks' /\ forall source ts, has source ts ks' -> exists e, g_else source ts e /\ match e with Some l => Some (bare source l) | None => None end = els).
  { destruct els as [l|].
    - destruct He as (s' & ks' & W' & R').
      exists (tag_text BeginBlockK EndBlockK [(TKeyword, s2b "else")] ++ s' ++ tag_text BeginBlockK EndBlockK [(TKeyword, s2b "endif")]),
        (block [(TKeyword, s2b "else")] ++ ks' ++ block [(TKeyword, s2b "endif")]).
      split; [repeat apply writes_app; auto; apply writes_kw; res|]. intros source ts H.
      apply has_app in H as (t1 & t2 & -> & H1 & H). apply has_app in H as (t3 & t4 & -> & H2 & H3).
      apply has_kw_tag in H1 as (k1 & K1 & T1). apply has_kw_tag in H3 as (k3 & K3 & T3). destruct (R' _ _ H2) as (l' & G' & E').
      exists (Some l'). split; [eapply gel_else; eauto|now rewrite E'].
    - exists (tag_text BeginBlockK EndBlockK [(TKeyword, s2b "endif")]), (block [(TKeyword, s2b "endif")]). split; [apply writes_kw; res|].
      intros source ts H. apply has_kw_tag in H as (k & K & T). exists None. split; [econstructor; eauto|reflexivity]. }
  destruct E as (s' & ks' & W' & G'). eexists _, _. split; [apply writes_app; [exact Wt|apply writes_app; [exact W|exact W']]|].
  intros source ts H. apply has_app in H as (t1 & t2 & -> & H1 & H). apply has_app in H as (t3 & t4 & -> & H2 & H3).
  apply has_block in H1 as (i & T & Hi). apply has_app in Hi as (ik & ic & -> & Hk & Hic). apply has_kw in Hk. destruct (Hg _ _ Hic) as (e & Gc & Ec).
  destruct (R _ _ H2) as (l & Gl & El). destruct (G' _ _ H3) as (el & Ge & Ee).
  exists [SIf neg e l el]. split; [apply one_stmt; eapply gs_if; eauto|]. unfold bare in *. cbn [map bare_stmt]. now rewrite Ec, El, Ee.
Qed.
Lemma written_closed kws (closer : string) body (f : list pstmt -> pstmt) :
  In (s2b closer) reserved -> wordy false kws -> written body ->
  (forall source i b l t t' k', has source i kws -> tag_block i t -> g_scope source b l -> kw source closer k' -> tag_block k' t' ->
     exists s, g_stmt source (t ++ b ++ t') s /\ bare_stmt source s = f (bare source l)) -> written [f body].
Proof.
  intros Hr Hw (s & ks & W & R) H. exists (tag_text BeginBlockK EndBlockK kws ++ s ++ tag_text BeginBlockK EndBlockK [(TKeyword, s2b closer)]), (block kws ++ ks ++ block [(TKeyword, s2b closer)]).
  split; [apply writes_app; [now apply writes_block|apply writes_app; [exact W|now apply writes_kw]]|].
  intros source ts Ht. apply has_app in Ht as (t1 & t2 & -> & H1 & Ht). apply has_app in Ht as (t3 & t4 & -> & H2 & H3).
  apply has_block in H1 as (i & T & Hi). apply has_kw_tag in H3 as (k & K & T'). destruct (R _ _ H2) as (l & G & E).
  destruct (H _ _ _ _ _ _ _ Hi T G K T') as (st & Gs & Es). exists [st]. split; [now apply one_stmt|]. unfold bare in *. cbn [map]. now rewrite Es, E.
Qed.

Theorem all_written : (forall s, a_stmt sx s -> written [s]) /\ (forall p, a_template sx p -> written p).
Proof.
  apply a_mut.
  - intros s Hs. exists (text_text s), (text_tokens s). split; [now apply writes_text|]. intros source ts H. unfold text_tokens, comment_tokens in H. cbn [app] in H. hs.
    eexists [SRaw _]. split.
    + apply gsc_comment. match goal with |- g_scope _ ((TRaw, ?sp) :: ?r) _ => change ((TRaw, sp) :: r) with ([(TRaw, sp)] ++ r) end. apply gsc_stmt; [constructor|]. apply gsc_comment. constructor.
    + cbn. f_equal. f_equal. match goal with E : txt source _ = s |- _ => exact E end.
  - intros e He. destruct (expr_words e He) as (ks & Hw & _ & Hg). eexists _, _. split; [apply (writes_tag HX BeginExprK EndExprK ks); auto|].
    intros source ts H. cbn [tag_token] in H. apply has_cons in H as (sp & t1 & -> & _ & H). apply has_app in H as (ta & tb & -> & H1 & H2). hs. destruct (Hg _ _ H1) as (e' & G & E).
    eexists. split; [apply one_stmt, gs_inline; exact G|]. cbn. now rewrite E.
  - intros n V. destruct (string_word n V) as (w & Hl & Hw). eexists _, _.
    split; [apply (writes_block ([(TKeyword, s2b "include")] ++ [(TString, w)])); apply kw_wordy; [res|apply Hw; constructor]|].
    intros source ts H. apply has_block in H as (i & T & Hi). apply has_app in Hi as (ik & ic & -> & Hk & Hic). apply has_kw in Hk. hs.
    eexists. split; [apply one_stmt; eapply gs_include; [exact Hk|rewrite Et; exact Hl|exact T]|]. reflexivity.
  - intros n e V He. destruct (string_word n V) as (w & Hl & Hw). destruct (expr_words e He) as (ks & Hwe & _ & Hg). eexists _, _.
    split; [apply (writes_block ([(TKeyword, s2b "include")] ++ [(TString, w)] ++ [(TKeyword, s2b "with")] ++ ks)); apply kw_wordy; [res|apply Hw, kw_wordy; [res|exact Hwe]]|].
    intros source ts H. apply has_block in H as (i & T & Hi). apply has_app in Hi as (ik & ic & -> & Hk & Hic). apply has_kw in Hk.
    apply has_app in Hic as (is & iw & -> & Hs & Hic). apply has_app in Hic as (iw' & ie & -> & Hkw & Hie). apply has_kw in Hkw. hs. destruct (Hg _ _ Hie) as (e' & G & E).
    eexists. split; [apply one_stmt; eapply gs_include_with; [exact Hk|rewrite Et; exact Hl|exact Hkw|exact G|exact T]|]. cbn. now rewrite E.
  - intros neg c thn Hc _ IH. now apply written_if.
  - intros neg c thn els Hc _ IH _ IH'. now apply written_if.
  - intros x e b Hx He Hf _ IH. destruct (expr_words e He) as (ks & _ & Hw & Hg). specialize (Hw Hf).
    apply (written_closed ([(TKeyword, s2b "for")] ++ [(TIdent, x)] ++ [(TKeyword, s2b "in")] ++ ks) "endfor" b (PFor x e)); [res| |exact IH|].
    + apply kw_wordy; [res|]. apply wordy_name; [exact Hx|]. apply kw_wordy; [res|exact Hw].
    + intros source i bt l t t' k' Hi T G K T'. apply has_app in Hi as (i1 & i2 & -> & H1 & Hi). apply has_app in Hi as (i3 & i4 & -> & H2 & Hi). apply has_app in Hi as (i5 & i6 & -> & H3 & H4).
      apply has_kw in H1. apply has_kw in H3. destruct (Hg _ _ H4) as (e' & Ge & Ee). hs.
      eexists. split; [eapply gs_for; [exact H1|constructor|exact H3|exact Ge|exact T|exact G|exact K|exact T']|]. cbn [bare_stmt id_span]. rewrite Ee. f_equal. exact Et.
  - intros k v e b Hk Hv He Hf _ IH. destruct (expr_words e He) as (ks & _ & Hw & Hg). specialize (Hw Hf).
    apply (written_closed ([(TKeyword, s2b "for")] ++ [(TIdent, k); (TComma, s2b ","); (TIdent, v)] ++ [(TKeyword, s2b "in")] ++ ks) "endfor" b (PForEntries k v e)); [res| |exact IH|].
    + apply kw_wordy; [res|]. apply wordy_name; [exact Hk|]. apply (wordy_char _ TComma x2c); [cbn; intuition discriminate|reflexivity|discriminate|reflexivity|].
      apply wordy_name; [exact Hv|]. apply kw_wordy; [res|exact Hw].
    + intros source i bt l t t' k' Hi T G K T'. apply has_app in Hi as (i1 & i2 & -> & H1 & Hi). apply has_app in Hi as (i3 & i4 & -> & H2 & Hi). apply has_app in Hi as (i5 & i6 & -> & H3 & H4).
      apply has_kw in H1. apply has_kw in H3. destruct (Hg _ _ H4) as (e' & Ge & Ee). hs.
      eexists. split; [eapply gs_for; [exact H1|constructor|exact H3|exact Ge|exact T|exact G|exact K|exact T']|]. cbn [bare_stmt id_span]. rewrite Ee. f_equal; assumption.
  - intros e n b He Hn _ IH. destruct (expr_words e He) as (ks & Hw & _ & Hg).
    apply (written_closed ([(TKeyword, s2b "with")] ++ ks ++ [(TKeyword, s2b "as")] ++ [(TIdent, n)]) "endwith" b (PWith e n)); [res| |exact IH|].
    + apply kw_wordy; [res|]. apply wordy_app; [exact Hw|]. apply kw_wordy; [res|]. apply wordy_name; [exact Hn|constructor].
    + intros source i bt l t t' k' Hi T G K T'. apply has_app in Hi as (i1 & i2 & -> & H1 & Hi). apply has_app in Hi as (i3 & i4 & -> & H2 & Hi). apply has_app in Hi as (i5 & i6 & -> & H3 & H4).
      apply has_kw in H1. apply has_kw in H3. destruct (Hg _ _ H2) as (e' & Ge & Ee). hs.
      eexists. split; [eapply gs_with; [exact H1|exact Ge|exact H3|exact T|exact G|exact K|exact T']|]. cbn [bare_stmt id_span]. rewrite Ee. f_equal. exact Et.
  - exists [], []. split; [apply writes_nil|]. intros source ts H. hs. exists []. split; [constructor|reflexivity].
  - intros s l _ IHs _ IHl. exact (written_app [s] l IHs IHl).
Qed.

(** Every such tree has a source. *)
Theorem has_source p : a_template sx p -> exists source, is_template sx source p.
Proof.
  intros H. destruct (proj2 all_written p H) as (s & ks & W & R). exists s.
  destruct (W false [] [] (or_introl eq_refl) (lexes_end _)) as (hy & _ & V & ts & Ht & Hs & _). rewrite !app_nil_r in *.
  split; [exact V|]. destruct (R s (nonspace ts) Hs) as (l & G & E). exists l. split; [|exact E]. exists ts. auto.
Qed.
End TreeParse.
