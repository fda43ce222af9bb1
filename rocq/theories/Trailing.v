(** Which strings have a literal: all but those that end in a backslash. *)
From Verif Require Import Base Utf8 Ext Errors Syntax AhoCorasick SearchSpec SyntaxSpec Value Ast Lexer LexSpec LexProof Wp
  GrammarSpec Parser LitProof AstOk Compiler CompileProof ParseMain Fmt Stack Filters Render Engine EngineSpec CompileFacts RenderObs Wrap LiteralSpec Literal Props2.

(** ** Strings that end in a backslash *)
Section Trailing.
Context `{X : Ext}.
Variable e : engine.
Hypothesis He : engine_for default_syntax e.

Lemma body_last prev b : ~ str_body_ok prev (b ++ [92])%N.
Proof. revert prev. induction b as [|c b IH]; intros prev; cbn; [intros (_ & H); congruence|]. intros (_ & H). now apply IH in H. Qed.
Lemma spells_quote cs s : spells cs s -> forall b r, cs = (b ++ 34 :: r)%N -> exists b', b = (b' ++ [92])%N.
Proof.
  assert (two : forall x cs' (b : list N) r, x <> 34%N \/ b <> [92]%N -> (92 :: x :: cs' = b ++ 34 :: r)%N -> exists b2, b = (92 :: x :: b2)%N /\ cs' = (b2 ++ 34 :: r)%N).
  { intros x cs' [|c1 [|c2 b2]] r Hx E; cbn in E; try discriminate E.
    - injection E as E1 E2 E3. subst. destruct Hx as [Hx|Hx]; exfalso; now apply Hx.
    - injection E as E1 E2 E3. subst. eauto. }
  induction 1 as [|c cs s Hc Hn H IH|cs s H IH|cs s H IH|cs s H IH|cs s H IH|cs s H IH]; intros b r E.
  - destruct b; discriminate E.
  - destruct b as [|c' b]; cbn in E; injection E as -> E; [exfalso; apply Hn; cbn; auto|]. destruct (IH _ _ E) as (b' & ->). now exists (c' :: b').
  - destruct (two 110%N cs b r ltac:(left; discriminate) E) as (b2 & -> & E2). destruct (IH _ _ E2) as (b' & ->). now exists (92 :: 110 :: b')%N.
  - destruct (two 114%N cs b r ltac:(left; discriminate) E) as (b2 & -> & E2). destruct (IH _ _ E2) as (b' & ->). now exists (92 :: 114 :: b')%N.
  - destruct (two 116%N cs b r ltac:(left; discriminate) E) as (b2 & -> & E2). destruct (IH _ _ E2) as (b' & ->). now exists (92 :: 116 :: b')%N.
  - destruct (two 92%N cs b r ltac:(left; discriminate) E) as (b2 & -> & E2). destruct (IH _ _ E2) as (b' & ->). now exists (92 :: 92 :: b')%N.
  - destruct (list_eq_dec N.eq_dec b [92]%N) as [->|Hb]; [now exists []|].
    destruct (two 34%N cs b r ltac:(now right) E) as (b2 & -> & E2). destruct (IH _ _ E2) as (b' & ->). now exists (92 :: 34 :: b')%N.
Qed.
(** The characters of the text: it ends in a backslash exactly if the spelling
    ends in an escaped one. *)
Lemma spells_decoded cs s : spells cs s -> exists ds, Forall scalar ds /\ s = flat_map encode ds /\
  (ds = [] <-> cs = []) /\ ((exists d, ds = d ++ [92])%N <-> (exists b, cs = b ++ [92])%N).
Proof.
  assert (cons_last : forall (x y : N) l, (exists d, x :: l = d ++ [y]) <-> (l = [] /\ x = y) \/ exists d, l = d ++ [y]).
  { intros x y l. split.
    - intros ([|z d] & E); cbn in E; injection E as -> E; subst; [left; auto|right; eauto].
    - intros [[-> ->]|(d & ->)]; [now exists []|now exists (x :: d)]. }
  assert (esc : forall x y cs ds, (x = 92 <-> y = 92)%N -> (ds = [] <-> cs = []) -> ((exists d, ds = d ++ [92])%N <-> (exists b, cs = b ++ [92])%N) ->
     (y :: ds = [] <-> 92%N :: x :: cs = []) /\ ((exists d, y :: ds = d ++ [92])%N <-> (exists b, 92 :: x :: cs = b ++ [92])%N)).
  { intros x y cs' ds Hxy Hnil Hl. split; [split; discriminate|]. rewrite cons_last, cons_last, cons_last, Hl, Hnil, Hxy. intuition discriminate. }
  induction 1 as [|c cs s Hc Hn H IH|cs s H IH|cs s H IH|cs s H IH|cs s H IH|cs s H IH].
  - exists []. repeat split; auto; intros ([|? ?] & E); discriminate E.
  - destruct IH as (ds & F & -> & Hnil & Hl). exists (c :: ds). split; [now constructor|]. split; [reflexivity|]. split; [split; discriminate|].
    rewrite !cons_last, Hl. assert (c <> 92%N) by (intros ->; apply Hn; cbn; auto). intuition congruence.
  - destruct IH as (ds & F & -> & Hnil & Hl). exists (10%N :: ds). split; [constructor; [unfold scalar; lia|exact F]|]. split; [reflexivity|]. apply esc; auto; split; discriminate.
  - destruct IH as (ds & F & -> & Hnil & Hl). exists (13%N :: ds). split; [constructor; [unfold scalar; lia|exact F]|]. split; [reflexivity|]. apply esc; auto; split; discriminate.
  - destruct IH as (ds & F & -> & Hnil & Hl). exists (9%N :: ds). split; [constructor; [unfold scalar; lia|exact F]|]. split; [reflexivity|]. apply esc; auto; split; discriminate.
  - destruct IH as (ds & F & -> & Hnil & Hl). exists (92%N :: ds). split; [constructor; [unfold scalar; lia|exact F]|]. split; [reflexivity|]. apply esc; auto; reflexivity.
  - destruct IH as (ds & F & -> & Hnil & Hl). exists (34%N :: ds). split; [constructor; [unfold scalar; lia|exact F]|]. split; [reflexivity|]. apply esc; auto; split; discriminate.
Qed.
Lemma spells_last cs s : spells cs s -> (exists r, s = r ++ [x5c]) <-> (exists b, cs = b ++ [92])%N.
Proof.
  intros H. destruct (spells_decoded _ _ H) as (ds & F & -> & _ & <-). split.
  - intros (r & E). destruct ds as [|c ds _] using rev_ind; [destruct r; discriminate E|]. exists ds. do 2 f_equal.
    apply Forall_app in F as (_ & Fc). inversion Fc as [|? ? Hc _]; subst. rewrite flat_map_app in E. cbn [flat_map] in E. rewrite app_nil_r in E.
    destruct (encode_shape c Hc) as (b & bs & Ee & _ & Hb). rewrite Ee in E. destruct bs as [|b0 bs _] using rev_ind.
    + apply app_inj_tail in E as (_ & ->). assert (Ec : encode c ++ [] = encode 92 ++ []) by (rewrite Ee; reflexivity).
      apply encode_app_inj in Ec as (-> & _); auto. unfold scalar. lia.
    + exfalso. replace (flat_map encode ds ++ b :: bs ++ [b0]) with ((flat_map encode ds ++ b :: bs) ++ [b0]) in E by (now rewrite <- app_assoc).
      apply app_inj_tail in E as (_ & ->). apply Forall_app in Hb as (_ & Hb). inversion Hb as [|? ? Hb0 _]. discriminate Hb0.
  - intros (d & ->). exists (flat_map encode d). now rewrite flat_map_app.
Qed.
(** Every text has a spelling. *)
Lemma spelling_exists s : valid_utf8 s -> exists cs, spells cs s.
Proof.
  intros (ds & F & ->). induction F as [|c ds Hc _ (cs & IH)]; [exists []; constructor|]. cbn [flat_map].
  destruct (in_dec N.eq_dec c [10; 13; 34; 92]%N) as [Hi|Hn]; [|eexists; exact (sp_char _ _ _ Hc Hn IH)].
  cbn in Hi. destruct Hi as [<-|[<-|[<-|[<-|[]]]]]; eexists;
  [exact (sp_newline _ _ IH)|exact (sp_return _ _ IH)|exact (sp_quote _ _ IH)|exact (sp_backslash _ _ IH)].
Qed.

Lemma space_lexeme path t s r : chars s = 32%N :: r -> lexeme path t s -> t = TWhitespace.
Proof.
  intros Ec H. destruct t; cbn in H; try contradiction; try reflexivity; exfalso.
  all: try (rewrite H in Ec; discriminate Ec).
  - destruct H as (_ & c & cs & E & (_ & _ & Hw & _) & _). rewrite Ec in E. injection E as <- _. discriminate Hw.
  - destruct H as (_ & c & cs & E & (_ & _ & Hw & _) & _). rewrite Ec in E. injection E as <- _. discriminate Hw.
  - destruct H as (_ & _ & H). rewrite Ec in H. inversion H as [|? ? Hd _]. discriminate Hd.
  - destruct H as (_ & c & cs & E & Hd & _). rewrite Ec in E. injection E as <- _. discriminate Hd.
  - destruct H as (b & E & _). rewrite Ec in E. discriminate E.
Qed.
Lemma quote_lexeme path t s r : chars s = 34%N :: r -> lexeme path t s -> t = TString.
Proof.
  intros Ec H. destruct t; cbn in H; try contradiction; try reflexivity; exfalso.
  all: try (rewrite H in Ec; discriminate Ec).
  - destruct H as (_ & H). rewrite Ec in H. inversion H as [|? ? Hd _]. discriminate Hd.
  - destruct H as (_ & c & cs & E & (_ & _ & _ & Hw) & _). rewrite Ec in E. injection E as <- _. apply Hw. cbn. tauto.
  - destruct H as (_ & c & cs & E & (_ & _ & _ & Hw) & _). rewrite Ec in E. injection E as <- _. apply Hw. cbn. tauto.
  - destruct H as (_ & _ & H). rewrite Ec in H. inversion H as [|? ? Hd _]. discriminate Hd.
  - destruct H as (_ & c & cs & E & Hd & _). rewrite Ec in E. injection E as <- _. discriminate Hd.
Qed.
Lemma sub_prefix source m n : m <= n <= length source -> skipn m source = sub source m n ++ skipn n source.
Proof. intros H. unfold sub. rewrite <- (firstn_skipn (n - m) (skipn m source)) at 1. rewrite skipn_skipn. do 2 f_equal. lia. Qed.
Lemma sub_length source m n : m <= n <= length source -> length (sub source m n) = n - m.
Proof. intros H. unfold sub. rewrite firstn_length, skipn_length. lia. Qed.
Lemma chars_nil_inv s : chars s = [] -> valid_utf8 s -> s = [].
Proof. intros H V. now rewrite <- (flat_map_chars s V), H. Qed.
Lemma app_split_eq {A} (a b c d : list A) : a ++ b = c ++ d -> length a = length c -> a = c /\ b = d.
Proof.
  revert c. induction a as [|x a IH]; intros [|y c] E L; cbn in *; try discriminate L; auto.
  injection E as -> E. destruct (IH c E) as (-> & ->); auto.
Qed.
Theorem trailing_fails cs s t : spells cs s -> (exists r, s = r ++ [x5c]) -> engine_compile (string_source cs) e <> Ok t.
Proof.
  intros Hsp Hs Ec. apply (spells_last _ _ Hsp) in Hs as (b & Eb). pose proof (quoted_chars cs s Hsp) as (Eq & Vq).
  set (source := string_source cs) in *.
  assert (V : valid_utf8 source) by (unfold source, string_source; apply valid_app; [now apply asciib_valid|]; apply valid_app; [exact Vq|now apply asciib_valid]).
  assert (Esrc : exists q, source = x7b :: x7b :: x20 :: x22 :: q) by (unfold source, string_source, quoted; eexists; reflexivity).
  destruct Esrc as (q & Esrc).
  unfold engine_compile in Ec. apply (compile_iff _ default_user_syntax _ (engine_searcher _ _ He) _ V (default_trims_ok _)) in Ec as (st & (ts & Ht & _) & _).
  assert (O : tag_at default_syntax source BeginExprK 0 2).
  { rewrite Esrc. apply (best_here (s2b "{{") (x20 :: x22 :: q) BeginExprK [] [] (tl default_syntax)); [reflexivity|intros ? ? []|].
    intros k' p' t' Hi E. vm_compute in Hi. change (s2b "{{") with [x7b; x7b] in *.
    repeat (destruct Hi as [Hi|Hi]; [injection Hi as _ <-; cbn in E |- *; first [lia|discriminate E]|]). destruct Hi. }
  assert (L : 4 <= length source) by (rewrite Esrc; cbn; lia).
  (* the opening tag *)
  assert (T2 : exists ts2, tiling default_syntax source true 2 (MTag TEndExpr false) ts2).
  { inversion Ht as [? ? Hl|? ? m n at' ts' A1 A2 A3 A4 A5 A6 A7 A8 A9 A10 A11 A12 A13|m n k b0 ts' A1 A2 A3|m n k md ts' A1 A2 A3 A4|m n t' e0 path ts' A1 A2 A3 A4 A5 A6 A7 A8]; subst; try (specialize (Hl eq_refl); lia).
    - exfalso. apply (A9 BeginExprK (s2b "{{") 0); [now left|lia|lia|]. split; [lia|]. rewrite Esrc. cbn [skipn]. eexists. reflexivity.
    - assert (U : BeginExprK = k /\ 2 = n) by exact (tag_unique default_syntax default_user_syntax _ (searcher_spec _ default_user_syntax _ (engine_searcher _ _ He)) source V _ _ _ _ _ O A2). destruct U as (<- & <-). eauto.
    - destruct A3 as [(b0 & A3)|(A3 & _)]; discriminate A3. }
  destruct T2 as (ts2 & T2).
  assert (Nd : forall p k, In (k, p) default_syntax -> ~ occurs_at p source 2).
  { intros p k Hi (_ & t' & E). rewrite Esrc in E. cbn [skipn] in E. exact (nodel_first x20 _ ltac:(cbn; intuition discriminate) k p t' Hi E). }
  assert (Nd3 : forall p k, In (k, p) default_syntax -> ~ occurs_at p source 3).
  { intros p k Hi (_ & t' & E). rewrite Esrc in E. cbn [skipn] in E. exact (nodel_first x22 _ ltac:(cbn; intuition discriminate) k p t' Hi E). }
  assert (Sk3 : skipn 3 source = quoted cs ++ s2b " }}") by reflexivity.
  assert (Ch3 : chars (skipn 3 source) = (34 :: cs ++ [34; 32; 125; 125])%N).
  { rewrite Sk3, chars_app, Eq; auto; [|now apply asciib_valid]. cbn [app]. f_equal. rewrite <- app_assoc. reflexivity. }
  assert (Ch2 : chars (skipn 2 source) = (32 :: 34 :: cs ++ [34; 32; 125; 125])%N).
  { change (skipn 2 source) with (encode 32 ++ skipn 3 source). rewrite chars_encode, Ch3; [reflexivity|unfold scalar; lia|]. rewrite Sk3. apply valid_app; [exact Vq|now apply asciib_valid]. }
  (* the space *)
  assert (T3 : exists ts3, tiling default_syntax source true 3 (MTag TEndExpr false) ts3).
  { inversion T2 as [? ? Hl|? ? m n at' ts' A1 A2 A3 A4 A5 A6 A7 A8 A9 A10 A11 A12 A13|m n k b0 ts' A1 A2 A3|m n k md ts' A1 A2 A3 A4|m n t' e0 path ts' A1 A2 A3 A4 A5 A6 A7 A8]; subst; try (specialize (Hl eq_refl); lia).
    - exfalso. now apply (A8 TEndExpr false).
    - exfalso. destruct A2 as (_ & _ & _ & _ & _ & bf & p & af & E & Oc & _). apply (Nd p k); auto. rewrite E. apply in_or_app. right. now left.
    - assert (Vs : valid_utf8 (sub source 2 n)) by (apply sub_valid; auto; lia). assert (Vr : valid_utf8 (skipn n source)) by (now apply boundary_split).
      pose proof Ch2 as E. rewrite (sub_prefix source 2 n), chars_app in E by (auto; lia).
      assert (Hne : sub source 2 n <> []) by (intros E1; apply (f_equal (@length byte)) in E1; rewrite sub_length in E1 by lia; cbn in E1; lia).
      destruct (chars (sub source 2 n)) as [|c0 r0] eqn:E0; [exfalso; apply Hne; now apply chars_nil_inv|].
      injection E as -> E. assert (t' = TWhitespace) by (eapply space_lexeme; eauto). subst t'. destruct A6 as (_ & A6). rewrite E0 in A6.
      destruct r0 as [|c1 r1].
      + assert (n = 3); [|subst n; eauto]. assert (El : sub source 2 n = [x20]) by (rewrite <- (flat_map_chars _ Vs), E0; reflexivity).
        apply (f_equal (@length byte)) in El. rewrite sub_length in El by lia. cbn in El. lia.
      + exfalso. cbn in E. injection E as -> _. inversion A6 as [|? ? _ A6']; subst. inversion A6' as [|? ? Hw _]. discriminate Hw. }
  destruct T3 as (ts3 & T3).
  (* the string *)
  inversion T3 as [? ? Hl|? ? m n at' ts' A1 A2 A3 A4 A5 A6 A7 A8 A9 A10 A11 A12 A13|m n k b0 ts' A1 A2 A3|m n k md ts' A1 A2 A3 A4|m n t' e0 path ts' A1 A2 A3 A4 A5 A6 A7 A8]; subst; try (specialize (Hl eq_refl); lia).
  - now apply (A8 TEndExpr false).
  - destruct A2 as (_ & _ & _ & _ & _ & bf & p & af & E & Oc & _). apply (Nd3 p k); auto. rewrite E. apply in_or_app. right. now left.
  - assert (Vs : valid_utf8 (sub source 3 n)) by (apply sub_valid; auto; lia). assert (Vr : valid_utf8 (skipn n source)) by (now apply boundary_split).
    pose proof Ch3 as E. rewrite (sub_prefix source 3 n), chars_app in E by (auto; lia).
    assert (Hne : sub source 3 n <> []) by (intros E1; apply (f_equal (@length byte)) in E1; rewrite sub_length in E1 by lia; cbn in E1; lia).
    destruct (chars (sub source 3 n)) as [|c0 r0] eqn:E0; [exfalso; apply Hne; now apply chars_nil_inv|]. injection E as -> E.
    assert (t' = TString) by (eapply quote_lexeme; eauto). subst t'. destruct A6 as (body & Eb' & Hbody). rewrite E0 in Eb'. injection Eb' as ->.
    rewrite <- app_assoc in E. cbn [app] in E.
    remember (b ++ [92])%N as w eqn:Ew.
    destruct (Nat.lt_trichotomy (length body) (length w)) as [Hlt|[Heq|Hgt]].
    + pose proof (f_equal (firstn (S (length body))) E) as Ef. rewrite !firstn_app in Ef.
      replace (S (length body) - length body) with 1 in Ef by lia. replace (S (length body) - length w) with 0 in Ef by lia.
      rewrite (firstn_all2 body) in Ef by lia. rewrite firstn_O in Ef. change (firstn 1 (34%N :: chars (skipn n source))) with [34%N] in Ef. rewrite app_nil_r in Ef.
      assert (Ecs : w = (body ++ 34 :: skipn (S (length body)) w)%N).
      { rewrite <- (firstn_skipn (S (length body)) w) at 1. rewrite <- Ef, <- app_assoc. reflexivity. }
      destruct (spells_quote _ _ Hsp _ _ Ecs) as (b' & ->). now apply body_last in Hbody.
    + apply app_split_eq in E as (-> & _); [|exact Heq]. subst w. now apply body_last in Hbody.
    + pose proof (f_equal (skipn (length w)) E) as Ef. rewrite !skipn_app, Nat.sub_diag, skipn_all in Ef. cbn [skipn app] in Ef.
      pose proof (f_equal (firstn (length w)) E) as Eg. rewrite !firstn_app, Nat.sub_diag, firstn_all in Eg. cbn [firstn] in Eg. rewrite app_nil_r in Eg.
      replace (length w - length body) with 0 in Ef, Eg by lia. cbn [firstn skipn] in Ef, Eg. rewrite app_nil_r in Eg.
      destruct (skipn (length w) body) as [|x1 r1] eqn:Es.
      { apply (f_equal (@length N)) in Es. rewrite skipn_length in Es. cbn in Es. lia. }
      cbn [app] in Ef. injection Ef as -> Ef.
      assert (Eq2 : body = (w ++ 34 :: r1)%N) by (rewrite <- (firstn_skipn (length w) body), Eg, Es; reflexivity).
      clear - Ef Hbody Eq2 Eg. destruct r1 as [|x2 r1]; cbn in Ef; [discriminate Ef|]. injection Ef as -> Ef.
      destruct r1 as [|x3 r1]; cbn in Ef; [discriminate Ef|]. injection Ef as -> Ef.
      destruct r1 as [|x4 r1]; cbn in Ef; [discriminate Ef|]. injection Ef as -> Ef. destruct r1; discriminate Ef.
Qed.
End Trailing.
