(** The parser accepts exactly the grammar, and never panics. *)
From Verif Require Import Base Utf8 Ext Errors Syntax AhoCorasick SearchSpec SyntaxSpec Value Ast Lexer LexSpec Wp TrimProof
  LexProof GrammarSpec Parser LitProof TokStream.

(** ** Spans of token lists *)
Definition first_m (ts : list tok) : nat := match ts with (_, a) :: _ => sp_m a | [] => 0 end.
Definition last_n (ts : list tok) : nat := match rev ts with (_, b) :: _ => sp_n b | [] => 0 end.

Lemma span_of_eq ts : span_of ts = mkspan (first_m ts) (last_n ts).
Proof.
  unfold span_of, first_m, last_n. destruct ts as [|[t a] ts]; auto.
  destruct (rev ((t, a) :: ts)) as [|[t' b] r] eqn:E; auto.
  exfalso. apply (f_equal (@length tok)) in E. rewrite rev_length in E. simpl in E. lia.
Qed.
Lemma first_m_app a b : a <> [] -> first_m (a ++ b) = first_m a.
Proof. now destruct a as [|[t s] a]. Qed.
Lemma last_n_app a b : b <> [] -> last_n (a ++ b) = last_n b.
Proof.
  intros H. unfold last_n. rewrite rev_app_distr. destruct (rev b) as [|[t s] r] eqn:E; auto.
  exfalso. apply H. rewrite <- (rev_involutive b), E. reflexivity.
Qed.
Lemma span_of_one t s : span_of [(t, s)] = s.
Proof. now destruct s. Qed.
Lemma app_ne_l {A} (a b : list A) : a <> [] -> a ++ b <> [].
Proof. now destruct a. Qed.
Lemma app_ne_r {A} (a b : list A) : b <> [] -> a ++ b <> [].
Proof. destruct a; simpl; auto. discriminate. Qed.

Section ParseProof.
Context `{X : Ext}.
Variable sx : syntax.
Hypothesis Hsx : user_syntax sx.
Variable sr : searcher.
Variable source : str.
Hypothesis Hsrc : valid_utf8 source.
Hypothesis Hne : source <> [].

Notation wf := (wf source).
Notation tok_ok := (tok_ok source).
Notation txt := (txt source).

Definition ordered (ts : list tok) : Prop := exists at_ text, wf at_ text ts.

Lemma ordered_app_r a b : ordered (a ++ b) -> ordered b.
Proof. intros (at_ & text & H). apply wf_app in H as (at' & text' & H). now exists at', text'. Qed.
Lemma wf_app_l a b at_ text : wf at_ text (a ++ b) -> wf at_ text a.
Proof.
  revert at_ text; induction a as [|t a IH]; intros at_ text H; simpl in *; [constructor|].
  inversion H; subst. econstructor; eauto.
Qed.
Lemma ordered_app_l a b : ordered (a ++ b) -> ordered a.
Proof. intros (at_ & text & H). apply wf_app_l in H. now exists at_, text. Qed.
Lemma ordered_mid a b c : ordered (a ++ b ++ c) -> ordered b.
Proof. intros H. apply ordered_app_r in H. now apply ordered_app_l in H. Qed.
Lemma ordered_cons t ts : ordered (t :: ts) -> ordered ts.
Proof. apply (ordered_app_r [t]). Qed.
Lemma ordered_tok t ts : ordered (t :: ts) -> tok_ok t.
Proof. intros (at_ & text & H). inversion H; subst. auto. Qed.

Lemma wf_first at_ text ts : wf at_ text ts -> ts <> [] -> at_ <= first_m ts.
Proof. intros H Hn. inversion H; subst; [contradiction|]. simpl. auto. Qed.
Lemma wf_last at_ text ts : wf at_ text ts -> ts <> [] -> first_m ts <= last_n ts /\ at_ <= last_n ts.
Proof.
  revert at_ text; induction ts as [|[t s] ts IH]; intros at_ text H Hn; [contradiction|].
  inversion H as [|? ? ? ? text' ? W1 W2 W3 W4 W5]; subst. destruct W3 as ((S1 & _) & _). cbn [snd] in S1.
  destruct ts as [|t' ts].
  - unfold last_n. simpl. lia.
  - change ((t, s) :: t' :: ts) with ([(t, s)] ++ t' :: ts). rewrite last_n_app by discriminate.
    destruct (IH _ _ W5 ltac:(discriminate)) as [I1 I2]. cbn [first_m app]. lia.
Qed.
Lemma ordered_last ts : ordered ts -> ts <> [] -> first_m ts <= last_n ts.
Proof. intros (at_ & text & H) Hn. now apply (wf_last _ _ _ H). Qed.
Lemma ordered_seq a b : ordered (a ++ b) -> a <> [] -> b <> [] -> last_n a <= first_m b.
Proof.
  intros (at_ & text & H) Ha Hb. revert at_ text H. induction a as [|[t s] a IH]; intros at_ text H; [contradiction|].
  simpl in H. inversion H as [|? ? ? ? text' ? W1 W2 W3 W4 W5]; subst.
  destruct a as [|t' a].
  - unfold last_n. simpl. now apply (wf_first _ _ _ W5).
  - change ((t, s) :: t' :: a) with ([(t, s)] ++ t' :: a). rewrite last_n_app by discriminate.
    eapply IH; eauto. discriminate.
Qed.

Lemma combine_spans a mid b : ordered (a ++ mid ++ b) -> a <> [] -> b <> [] ->
  combine_span (span_of a) (span_of b) = span_of (a ++ mid ++ b).
Proof.
  intros H Ha Hb. rewrite !span_of_eq. unfold combine_span. cbn [sp_m sp_n].
  rewrite first_m_app by assumption. rewrite (last_n_app a), (last_n_app mid) by auto using app_ne_r.
  assert (H1 : first_m a <= first_m b).
  { assert (H' := H). rewrite app_assoc in H'. apply ordered_seq in H'; auto using app_ne_l.
    assert (K := ordered_last (a ++ mid)). rewrite first_m_app in K by assumption.
    rewrite app_assoc in H. apply ordered_app_l in H. specialize (K H (app_ne_l _ _ Ha)). lia. }
  assert (H2 : last_n a <= last_n b).
  { assert (H' := H). apply ordered_seq in H'; auto using app_ne_r.
    apply ordered_app_r in H. apply ordered_last in H; auto using app_ne_r. rewrite last_n_app in H by assumption. lia. }
  f_equal; lia.
Qed.

Lemma combine_toks t s mid t' s' : ordered ((t, s) :: mid ++ [(t', s')]) ->
  combine_span s s' = span_of ((t, s) :: mid ++ [(t', s')]).
Proof.
  intros H. rewrite <- (span_of_one t s) at 1. rewrite <- (span_of_one t' s') at 1.
  apply (combine_spans [(t, s)] mid [(t', s')]); auto; discriminate.
Qed.

(** ** Parser states *)
Definition ok (p : parser) (ts : list tok) (fin : option error) : Prop :=
  abs sx sr source p ts fin /\ ordered ts /\ length ts <= length source.

Lemma ok_next p t ts fin : ok p (t :: ts) fin ->
  exists p', p_next sr source p = Ok (Some t, p') /\ ok p' ts fin.
Proof.
  intros (H1 & H2 & H3). destruct (p_next_cons sx Hsx sr source Hsrc _ _ _ _ H1) as (p' & E & H').
  exists p'. split; auto. split; auto. split; [eapply ordered_cons; eauto|]. simpl in H3. lia.
Qed.
Lemma ok_peek p t ts fin : ok p (t :: ts) fin ->
  exists p', p_peek sr source p = Ok (Some t, p') /\ ok p' (t :: ts) fin.
Proof.
  intros (H1 & H2 & H3). destruct (p_peek_cons sx Hsx sr source Hsrc _ _ _ _ H1) as (p' & E & H').
  exists p'. split; auto. split; auto.
Qed.
Lemma ok_next_nil p : ok p [] None -> exists p', p_next sr source p = Ok (None, p') /\ ok p' [] None.
Proof.
  intros (H1 & H2 & H3). destruct (p_next_nil sx Hsx sr source Hsrc _ H1) as (p' & E & H'). exists p'. split; auto. split; auto.
Qed.
Lemma ok_peek_nil p : ok p [] None -> exists p', p_peek sr source p = Ok (None, p') /\ ok p' [] None.
Proof.
  intros (H1 & H2 & H3). destruct (p_peek_nil sx Hsx sr source Hsrc _ H1) as (p' & E & H'). exists p'. split; auto. split; auto.
Qed.
Lemma ok_next_err p e : ok p [] (Some e) -> p_next sr source p = Err e.
Proof. intros (H1 & H2 & H3). eapply p_next_err; eauto. Qed.
Lemma ok_peek_err p e : ok p [] (Some e) -> p_peek sr source p = Err e.
Proof. intros (H1 & H2 & H3). eapply p_peek_err; eauto. Qed.
Lemma ok_ordered p ts fin : ok p ts fin -> ordered ts.
Proof. now intros (_ & H & _). Qed.
Lemma ok_tok p t ts fin : ok p (t :: ts) fin -> tok_ok t.
Proof. intros H. eapply ordered_tok, ok_ordered; eauto. Qed.
Lemma ok_span p t s ts fin : ok p ((t, s) :: ts) fin -> span_ok source s.
Proof. intros H. apply ok_tok in H as [H _]. exact H. Qed.
Lemma ok_fuel p ts fin : ok p ts fin -> length ts < pfuel source.
Proof. intros (_ & _ & H). unfold pfuel. lia. Qed.
Lemma eof_span : span_ok source (mkspan (length source) (length source)).
Proof. repeat split; simpl; auto using boundary_len. Qed.

Lemma next_wp p ts fin : ok p ts fin ->
  wp (p_next sr source p) (fun '(o, p') => match o with
    | Some t => exists ts', ts = t :: ts' /\ ok p' ts' fin
    | None => ts = [] /\ fin = None /\ ok p' [] None end).
Proof.
  intros H. destruct ts as [|t ts].
  - destruct fin as [e|]; [rewrite (ok_next_err _ _ H); exact I|].
    destruct (ok_next_nil _ H) as (p' & -> & H'). simpl. auto.
  - destruct (ok_next _ _ _ _ H) as (p' & -> & H'). simpl. eauto.
Qed.
Lemma peek_wp p ts fin : ok p ts fin ->
  wp (p_peek sr source p) (fun '(o, p') => o = hd_error ts /\ ok p' ts fin).
Proof.
  intros H. destruct ts as [|t ts].
  - destruct fin as [e|]; [rewrite (ok_peek_err _ _ H); exact I|].
    destruct (ok_peek_nil _ H) as (p' & -> & H'). simpl. auto.
  - destruct (ok_peek _ _ _ _ H) as (p' & -> & H'). simpl. auto.
Qed.

(** [parses G]: a prefix derived by [G] was consumed. *)
Definition parses {A} (G : list tok -> A -> Prop) (ts : list tok) (fin : option error) (r : A * parser) : Prop :=
  exists used ts', ts = used ++ ts' /\ ok (snd r) ts' fin /\ G used (fst r).

Lemma is_next_wp p tk ts fin : ok p ts fin ->
  wp (is_next sr source p tk) (fun '(b, p') => ok p' ts fin /\
     (b = true -> exists sp ts', ts = (tk, sp) :: ts')).
Proof.
  intros H. unfold is_next. apply wp_bind. eapply wp_mono; [apply peek_wp; eauto|].
  intros [o p'] (-> & H'). cbn [wp]. split; auto. destruct ts as [|[t s] ts]; simpl; [discriminate|].
  rewrite token_eqb_eq. intros ->. eauto.
Qed.

Lemma expect_wp p tk ts fin : ok p ts fin ->
  wp (expect sr source p tk) (parses (fun used sp => used = [(tk, sp)]) ts fin).
Proof.
  intros H. unfold expect. apply wp_bind. eapply wp_mono; [apply next_wp; eauto|].
  intros [[[t s]|] p'].
  - intros (ts' & -> & H'). destruct (token_eqb t tk) eqn:E.
    + apply token_eqb_eq in E. subst t. cbn [wp]. exists [(tk, s)], ts'. auto.
    + apply err_syntax_wp; auto. eapply ok_span; eauto.
  - intros _. apply err_syntax_wp; auto using eof_span.
Qed.

Lemma parse_any_wp p ts fin : ok p ts fin ->
  wp (parse_any sr source p) (fun '(t, sp, p') => exists ts', ts = (t, sp) :: ts' /\ ok p' ts' fin).
Proof.
  intros H. unfold parse_any. apply wp_bind. eapply wp_mono; [apply next_wp; eauto|].
  intros [[[t s]|] p'].
  - intros (ts' & -> & H'). cbn [wp]. eauto.
  - intros _. apply err_syntax_wp; auto using eof_span.
Qed.

Lemma parse_ident_wp p ts fin : ok p ts fin ->
  wp (parse_ident sr source p) (parses (fun used i => used = [(TIdent, id_span i)]) ts fin).
Proof.
  intros H. unfold parse_ident. apply wp_bind. eapply wp_mono; [apply expect_wp; eauto|].
  intros [sp p'] (used & ts' & E & H' & G). cbn [wp]. exists used, ts'. auto.
Qed.

(** ** Keywords *)
Definition kw_str (k : keyword) : string :=
  match k with
  | KwIf => "if" | KwNot => "not" | KwElse => "else" | KwEndIf => "endif" | KwFor => "for" | KwIn => "in"
  | KwEndFor => "endfor" | KwWith => "with" | KwAs => "as" | KwEndWith => "endwith" | KwInclude => "include"
  | KwTrue => "true" | KwFalse => "false"
  end.
Lemma kw_human k : keyword_human k = s2b (kw_str k).
Proof. now destruct k. Qed.
Lemma keyword_from_str_ok s : In s keyword_all -> exists k, keyword_from_str s = Ok k /\ s = s2b (kw_str k).
Proof.
  unfold keyword_all. simpl. intros H.
  repeat (destruct H as [<-|H]; [eexists; split; reflexivity|]). contradiction.
Qed.
Lemma keyword_from_str_human k : keyword_from_str (s2b (kw_str k)) = Ok k.
Proof. now destruct k. Qed.
Lemma kw_str_inj k k' : s2b (kw_str k) = s2b (kw_str k') -> k = k'.
Proof.
  intros H. assert (E : Ok k = (Ok k' : res keyword)); [|congruence].
  now rewrite <- (keyword_from_str_human k), H, keyword_from_str_human.
Qed.
Lemma keyword_eqb_eq a b : keyword_eqb a b = true <-> a = b.
Proof. unfold keyword_eqb. destruct (keyword_eq_dec a b); split; auto; discriminate. Qed.

Lemma ok_keyword p sp ts fin : ok p ((TKeyword, sp) :: ts) fin ->
  index_span source sp = (Ok (txt sp) : res str) /\ exists k, keyword_from_str (txt sp) = Ok k /\ txt sp = s2b (kw_str k).
Proof.
  intros H. pose proof (ok_tok _ _ _ _ H) as (H1 & H2 & H3 & _). split; [now apply index_span_ok|].
  destruct (H3 eq_refl) as (b & Hin & _). now apply keyword_from_str_ok.
Qed.

Lemma is_next_keyword_wp p k ts fin : ok p ts fin ->
  wp (is_next_keyword sr source p k) (fun '(b, p') => ok p' ts fin /\
     (b = true -> exists sp ts', ts = (TKeyword, sp) :: ts' /\ txt sp = s2b (kw_str k))).
Proof.
  intros H. unfold is_next_keyword. apply wp_bind. eapply wp_mono; [apply peek_wp; eauto|].
  intros [o p'] (-> & H'). destruct ts as [|[t s] ts]; [simpl; split; auto; discriminate|].
  destruct t; try (simpl; split; auto; discriminate). cbn [hd_error].
  destruct (ok_keyword _ _ _ _ H) as (-> & k' & E1 & E2). cbn [bind]. rewrite E1. cbn [bind wp]. split; auto.
  rewrite keyword_eqb_eq. intros ->. eauto.
Qed.

Lemma parse_keyword_wp p ts fin : ok p ts fin ->
  wp (parse_keyword sr source p) (fun '(k, sp, p') => exists ts', ts = (TKeyword, sp) :: ts' /\ ok p' ts' fin /\
     txt sp = s2b (kw_str k)).
Proof.
  intros H. unfold parse_keyword. apply wp_bind. eapply wp_mono; [apply expect_wp; eauto|].
  intros [sp p'] (used & ts' & E & H' & G). simpl in G. subst used. simpl in E. subst ts.
  destruct (ok_keyword _ _ _ _ H) as (-> & k' & E1 & E2). cbn [bind]. rewrite E1. cbn [bind wp]. eauto.
Qed.

Lemma expect_keyword_wp p k ts fin : ok p ts fin ->
  wp (expect_keyword sr source p k) (fun r => parses (fun used (_ : unit) => kw source (kw_str k) used) ts fin (tt, snd r)).
Proof.
  intros H. unfold expect_keyword. apply wp_bind. eapply wp_mono; [apply parse_keyword_wp; eauto|].
  intros [[k' sp] p'] (ts' & -> & H' & E). destruct (keyword_eqb k' k) eqn:Ek.
  - apply keyword_eqb_eq in Ek. subst k'. cbn [wp]. exists [(TKeyword, sp)], ts'. split; auto. split; auto. exists sp. auto.
  - apply err_syntax_wp; auto. eapply ok_span; eauto.
Qed.

(** ** Members and variables *)
Lemma parse_access_wp p ts fin : ok p ts fin ->
  wp (parse_access sr source p) (parses (g_access source) ts fin).
Proof.
  intros H. unfold parse_access. apply wp_bind. eapply wp_mono; [apply parse_any_wp; eauto|].
  intros [[t sp] p'] (ts' & -> & H'). pose proof (ok_span _ _ _ _ _ H) as Hsp.
  destruct t; try (apply err_syntax_wp; auto; fail).
  - cbn [wp]. exists [(TIdent, sp)], ts'. split; auto. split; auto. constructor.
  - rewrite index_span_ok by assumption. cbn [bind]. destruct (parse_usize _) as [v|] eqn:E.
    + cbn [wp]. exists [(TIndex, sp)], ts'. split; auto. split; auto. constructor. now apply parse_usize_spec.
    + apply err_syntax_wp; auto.
Qed.

Lemma access_ne ts a : g_access source ts a -> ts <> [] /\ access_span a = span_of ts.
Proof. destruct 1; split; try discriminate; now rewrite span_of_one. Qed.

Lemma g_members_snoc ts ms : g_members source ts ms -> forall sp ts2 a op t,
  (op = Direct /\ t = TDot) \/ (op = Optional /\ t = TQuestionDot) -> g_access source ts2 a ->
  g_members source (ts ++ (t, sp) :: ts2) (ms ++ [mkmember op a (span_of ((t, sp) :: ts2))]).
Proof.
  induction 1 as [|s0 ts0 a0 ts' ms Ha Hm IH|s0 ts0 a0 ts' ms Ha Hm IH]; intros sp ts2 a op t Hop Ha2; cbn [app].
  - rewrite <- (app_nil_r ts2) at 1. destruct Hop as [[-> ->]|[-> ->]]; [apply gm_dot|apply gm_question]; auto using gm_nil.
  - rewrite <- app_assoc. constructor; auto.
  - rewrite <- app_assoc. constructor; auto.
Qed.

Lemma parse_var_loop_wp fuel : forall p ts fin pre used path, ok p ts fin -> length ts < fuel ->
  ordered (pre ++ used ++ ts) ->
  g_members source used path -> forall first,
  wp (parse_var_loop sr source fuel p (first :: path))
     (parses (fun u v => exists path', v = first :: path' /\ g_members source (used ++ u) path') ts fin).
Proof.
  induction fuel as [|fuel IH]; intros p ts fin pre used path H Hf Hord Hg first; [lia|].
  cbn [parse_var_loop]. apply wp_bind. eapply wp_mono; [apply peek_wp; eauto|].
  intros [o p1] (-> & H1).
  assert (Hstop : wp (Ok (first :: path, p1) : res (var * parser)) (parses (fun u v => exists path', v = first :: path' /\ g_members source (used ++ u) path') ts fin)).
  { cbn [wp]. exists [], ts. split; auto. split; auto. exists path. rewrite app_nil_r. auto. }
  assert (Hmem : forall t op s ts0, ts = (t, s) :: ts0 -> (op = Direct /\ t = TDot) \/ (op = Optional /\ t = TQuestionDot) ->
    wp (let* (_, p) := expect sr source p1 t in
        let* (a, p) := parse_access sr source p in
        parse_var_loop sr source fuel p ((first :: path) ++ [mkmember op a (combine_span s (access_span a))]))
       (parses (fun u v => exists path', v = first :: path' /\ g_members source (used ++ u) path') ts fin)).
  { intros t op s ts0 -> Hop. apply wp_bind. eapply wp_mono; [apply expect_wp; eauto|].
    intros [s' p2] (u1 & ts1 & E1 & H2 & G1). cbn [fst snd] in *. subst u1. cbn [app] in E1. injection E1 as <- <-.
    apply wp_bind. eapply wp_mono; [apply parse_access_wp; eauto|].
    intros [a p3] (u2 & ts2 & E2 & H3 & G2). cbn [fst snd] in *. subst ts0.
    destruct (access_ne _ _ G2) as [Hn2 Esp].
    assert (Hcomb : combine_span s (access_span a) = span_of ((t, s) :: u2)).
    { rewrite Esp. rewrite <- (span_of_one t s) at 1. apply (combine_spans [(t, s)] [] u2); try discriminate; auto.
      apply ordered_mid with (a := pre ++ used) (c := ts2). rewrite <- app_assoc. exact Hord. }
    rewrite Hcomb. cbn [app]. eapply wp_mono; [apply (IH p3 ts2 fin pre (used ++ (t, s) :: u2))|].
    - exact H3.
    - simpl in Hf. rewrite app_length in Hf. lia.
    - rewrite <- (app_assoc used). exact Hord.
    - now apply g_members_snoc.
    - intros [v p4] (u3 & ts3 & -> & H4 & path' & Ev & G3). cbn [fst snd] in *. subst v.
      exists ((t, s) :: u2 ++ u3), ts3. split; [cbn [app]; now rewrite <- app_assoc|]. split; auto.
      exists path'. split; auto. rewrite <- app_assoc in G3. exact G3. }
  destruct ts as [|[t s] ts0]; [exact Hstop|]. cbn [hd_error].
  destruct t; try exact Hstop.
  - apply (Hmem TDot Direct s ts0); auto.
  - apply (Hmem TQuestionDot Optional s ts0); auto.
Qed.

(** ** Base expressions *)
Lemma g_members_last ts ms : g_members source ts ms -> ms = [] /\ ts = [] \/
  exists pre l m, ts = pre ++ l /\ l <> [] /\ hd_error (rev ms) = Some m /\ mb_span m = span_of l.
Proof.
  assert (G : forall ts0 (m0 : member) ts' ms, ts0 <> [] -> mb_span m0 = span_of ts0 ->
    (ms = [] /\ ts' = [] \/ exists pre l m, ts' = pre ++ l /\ l <> [] /\ hd_error (rev ms) = Some m /\ mb_span m = span_of l) ->
    exists pre l m, ts0 ++ ts' = pre ++ l /\ l <> [] /\ hd_error (rev (m0 :: ms)) = Some m /\ mb_span m = span_of l).
  { intros ts0 m0 ts' ms1 Hn Hs [[-> ->]|(pre & l & m & -> & Hl & Hr & Hm)].
    - exists [], ts0, m0. rewrite app_nil_r. auto.
    - exists (ts0 ++ pre), l, m. rewrite <- app_assoc. repeat split; auto. simpl.
      destruct (rev ms1); [discriminate|exact Hr]. }
  induction 1 as [|s0 ts0 a0 ts' ms Ha Hm IH|s0 ts0 a0 ts' ms Ha Hm IH]; auto; right.
  - apply (G ((TDot, s0) :: ts0)); auto. discriminate.
  - apply (G ((TQuestionDot, s0) :: ts0)); auto. discriminate.
Qed.

Lemma base_span_of ts b : g_base source ts b -> ordered ts -> ts <> [] /\ (base_span b : res span) = Ok (span_of ts).
Proof.
  destruct 1 as [sp ts ms Hm| | | | | |]; intros Ho; split; try discriminate; cbn [base_span];
    rewrite ?span_of_one; try reflexivity.
  unfold var_span, var_first, var_last. cbn [hd_error unwrap bind].
  destruct (g_members_last _ _ Hm) as [[-> ->]|(pre & l & m & -> & Hl & Hr & Hsp)].
  - cbn. f_equal. unfold combine_span. now rewrite Nat.min_id, Nat.max_id.
  - cbn [rev]. assert (E : hd_error (rev ms ++ [mkmember Direct (AKey (mkident sp)) sp]) = Some m).
    { destruct (rev ms); [discriminate|exact Hr]. }
    rewrite E. cbn [unwrap bind mb_span]. f_equal. rewrite Hsp. rewrite <- (span_of_one TIdent sp) at 1.
    apply (combine_spans [(TIdent, sp)] pre l); auto; discriminate.
Qed.

Lemma number_chars s : valid_utf8 s -> forall p, lexeme p TNumber s -> asciib s = true.
Proof.
  intros V p (_ & c & cs & E & Hd & HF). apply ascii_chars; auto. rewrite E. constructor.
  - unfold ascii_digit in Hd. rewrite andb_true_iff, !N.leb_le in Hd. lia.
  - eapply Forall_impl; [|exact HF]. simpl. intros x Hx. unfold number_char, ascii_digit, ascii_letter in Hx.
    repeat (rewrite orb_true_iff in Hx || rewrite andb_true_iff in Hx || rewrite N.leb_le in Hx || rewrite N.eqb_eq in Hx). lia.
Qed.

(** Error positions inside an ASCII stretch. *)
Lemma ascii_inner sp len : span_ok source sp -> asciib (sub source (sp_m sp) (sp_n sp)) = true ->
  len <= sp_n sp - sp_m sp -> inner_ok source sp len.
Proof.
  intros (H1 & H2 & H3) Ha Hl k Hk. pose proof (boundary_le _ _ H3) as Hb. split; [simpl; lia|]. simpl. split.
  - apply ascii_boundary with (sp_m sp) (sp_n sp); auto; lia.
  - destruct (Nat.eq_dec (sp_m sp + k + 1) (sp_n sp)) as [->|Hne']; auto.
    apply ascii_boundary with (sp_m sp) (sp_n sp); auto; lia.
Qed.

Lemma tok_txt_valid t sp : tok_ok (t, sp) -> valid_utf8 (txt sp).
Proof. intros ((H1 & H2 & H3) & _). apply sub_valid; auto. Qed.

(** The stretch from a sign to its number is ASCII. *)
Lemma signed_inner t s nsp ts : (t = TMinus \/ t = TPlus) -> ordered ((t, s) :: (TNumber, nsp) :: ts) ->
  combine_span s nsp = span_of [(t, s); (TNumber, nsp)] /\
  span_ok source (combine_span s nsp) /\ inner_ok source (combine_span s nsp) (length (txt nsp)).
Proof.
  intros Ht Ho. assert (Ho1 : ordered ((t, s) :: [] ++ [(TNumber, nsp)])) by (apply (ordered_app_l _ ts); exact Ho).
  assert (Ec := combine_toks _ _ _ _ _ Ho1). cbn [app] in Ec. rewrite Ec.
  assert (K1 := ordered_tok _ _ Ho). assert (K2 := ordered_tok _ _ (ordered_cons _ _ Ho)).
  assert (Hsp : span_ok source (combine_span s nsp)) by (apply span_ok_combine; [apply K1|apply K2]).
  rewrite Ec in Hsp. split; auto. split; auto.
  assert (Es : span_of [(t, s); (TNumber, nsp)] = mkspan (sp_m s) (sp_n nsp)) by reflexivity. rewrite Es in *.
  destruct Ho as (at_ & text & Hw). inversion Hw as [|? ? ? ? text' ? W1 W2 W3 W4 W5]; subst.
  inversion W5 as [|? ? ? ? text'' ? Y1 Y2 Y3 Y4 Y5]; subst.
  assert (text' = false) by (destruct Ht as [-> | ->]; simpl in W4; tauto). subst text'.
  destruct K1 as ((A1 & A2 & A3) & A4 & _ & A5). destruct K2 as ((B1 & B2 & B3) & B4 & B5 & _). cbn [fst snd] in *.
  apply ascii_inner; auto; cbn [sp_m sp_n].
  - rewrite (sub_split source (sp_m s) (sp_n s) (sp_n nsp)) by lia.
    rewrite (sub_split source (sp_n s) (sp_m nsp) (sp_n nsp)) by lia.
    rewrite !asciib_app, A5, (Y2 eq_refl) by assumption. destruct (B5 eq_refl) as (b & HL).
    simpl. apply number_chars with b; auto. apply sub_valid; auto.
  - unfold GrammarSpec.txt. rewrite sub_length by lia. lia.
Qed.

Lemma parse_base_wp p ts fin : ok p ts fin ->
  wp (parse_base_expr sr source p) (parses (g_base source) ts fin).
Proof.
  intros H. unfold parse_base_expr. apply wp_bind. eapply wp_mono; [apply parse_any_wp; eauto|].
  intros [[t sp] p'] (ts' & -> & H'). pose proof (ok_span _ _ _ _ _ H) as Hsp. pose proof (ok_tok _ _ _ _ H) as Htok.
  assert (Hsigned : forall neg : bool, t = (if neg then TMinus else TPlus) ->
    wp (let* (nsp, p) := expect sr source p' TNumber in
        let* raw := index_span source nsp in
        let span := combine_span sp nsp in
        let* v := parse_literal_number source raw span (sgn neg) in
        Ok (BLit v span, p)) (parses (g_base source) ((t, sp) :: ts') fin)).
  { intros neg Et. apply wp_bind. eapply wp_mono; [apply expect_wp; eauto|].
    intros [nsp p2] (u1 & ts1 & E1 & H2 & G1). cbn [fst snd] in *. subst u1. cbn [app] in E1. subst ts'.
    pose proof (ok_span _ _ _ _ _ H') as Hnsp. rewrite index_span_ok by assumption. cbn [bind]. cbv zeta.
    destruct (signed_inner t sp nsp ts1) as (Ec & Hc & Hin); [destruct neg; auto|eapply ok_ordered; eauto|].
    pose proof (number_spec source (txt nsp) (combine_span sp nsp) neg Hne Hc Hin) as HN.
    destruct (parse_literal_number _ _ _ _) as [v|e| |]; try contradiction; [|exact I]. cbn [bind wp].
    exists [(t, sp); (TNumber, nsp)], ts1. split; auto. split; auto. cbn [fst]. rewrite Ec.
    destruct neg; subst t; constructor; auto. }
  destruct t; try (apply err_syntax_wp; auto; fail).
  - apply (Hsigned false eq_refl).
  - apply (Hsigned true eq_refl).
  - unfold parse_literal_bool. rewrite index_span_ok by assumption. cbn [bind]. fold (txt sp).
    destruct (str_eqb (txt sp) (s2b "false")) eqn:E1; [|destruct (str_eqb (txt sp) (s2b "true")) eqn:E2].
    + apply str_eqb_eq in E1. cbn [bind wp]. exists [(TKeyword, sp)], ts'. split; auto. split; auto. now constructor.
    + apply str_eqb_eq in E2. cbn [bind wp]. exists [(TKeyword, sp)], ts'. split; auto. split; auto. now constructor.
    + apply wp_bind, err_syntax_wp; auto.
  - apply wp_bind. unfold parse_var. eapply wp_mono.
    + apply (parse_var_loop_wp (pfuel source) p' ts' fin [(TIdent, sp)] [] []); auto.
      * eapply ok_fuel; eauto.
      * eapply ok_ordered; eauto.
      * constructor.
    + intros [v p2] (u & ts2 & -> & H2 & path' & Ev & G). cbn [fst snd app] in *. subst v. cbn [wp].
      exists ((TIdent, sp) :: u), ts2. split; auto. split; auto. cbn [fst]. now constructor.
  - rewrite index_span_ok by assumption. cbn [bind]. fold (txt sp).
    assert (Hin : inner_ok source sp (length (txt sp))).
    { destruct Htok as ((A1 & A2 & A3) & A4 & A5 & _). cbn [fst snd] in *. apply ascii_inner; auto.
      - destruct (A5 eq_refl) as (b & HL). apply number_chars with b; auto. apply sub_valid; auto.
      - unfold GrammarSpec.txt. rewrite sub_length by lia. lia. }
    pose proof (number_spec source (txt sp) sp false Hne Hsp Hin) as HN. cbn [sgn] in HN.
    destruct (parse_literal_number _ _ _ _) as [v|e| |]; try contradiction; [|exact I]. cbn [bind wp].
    exists [(TNumber, sp)], ts'. split; auto. split; auto. now constructor.
  - destruct Htok as (_ & _ & A5 & _). destruct (A5 eq_refl) as (b & HL). cbn [fst snd] in HL.
    pose proof (parse_string_spec source sp b Hne Hsrc Hsp HL) as HS.
    destruct (parse_string source sp) as [s|e| |]; try contradiction; [|exact I]. cbn [bind wp].
    exists [(TString, sp)], ts'. split; auto. split; auto. now constructor.
Qed.

(** ** Arguments and expressions *)
Lemma g_args_snoc ts bs : g_args source ts bs -> forall c ts2 b, g_base source ts2 b ->
  g_args source (ts ++ (TComma, c) :: ts2) (bs ++ [b]).
Proof.
  induction 1 as [ts b0 Hb|ts b0 c0 ts' bs Hb Ha IH]; intros c ts2 b Hb2; simpl.
  - constructor; auto. now constructor.
  - rewrite <- app_assoc. simpl. constructor; auto.
Qed.

Lemma parse_args_loop_wp fuel : forall p ts fin used bs, ok p ts fin -> length ts < fuel ->
  (used = [] /\ bs = [] \/ exists u0 c, used = u0 ++ [(TComma, c)] /\ g_args source u0 bs) ->
  wp (parse_args_loop sr source fuel p bs) (parses (fun u v => g_args source (used ++ u) v) ts fin).
Proof.
  induction fuel as [|fuel IH]; intros p ts fin used bs H Hf Hu; [lia|].
  cbn [parse_args_loop]. apply wp_bind. eapply wp_mono; [apply parse_base_wp; eauto|].
  intros [b p1] (u1 & ts1 & -> & H1 & G1). cbn [fst snd] in *. cbv zeta.
  assert (Hnew : g_args source (used ++ u1) (bs ++ [b])).
  { destruct Hu as [[-> ->]|(u0 & c & -> & G0)]; [now constructor|]. rewrite <- app_assoc. now apply g_args_snoc. }
  apply wp_bind. eapply wp_mono; [apply is_next_wp; eauto|].
  intros [c p2] (H2 & Hc). destruct c.
  - destruct (Hc eq_refl) as (sp & ts2 & ->). apply wp_bind. eapply wp_mono; [apply expect_wp; eauto|].
    intros [s3 p3] (u3 & ts3 & E3 & H3 & G3). cbn [fst snd] in *. subst u3. cbn [app] in E3. injection E3 as <- <-.
    eapply wp_mono; [apply (IH p3 ts2 fin (used ++ u1 ++ [(TComma, sp)]) (bs ++ [b])); auto|].
    + rewrite app_length in Hf. simpl in Hf. lia.
    + right. exists (used ++ u1), sp. rewrite <- app_assoc. auto.
    + intros [v p4] (u4 & ts4 & -> & H4 & G4). cbn [fst snd] in *.
      exists (u1 ++ (TComma, sp) :: u4), ts4. split; [now rewrite <- app_assoc|]. split; auto.
      rewrite <- !app_assoc in G4. exact G4.
  - cbn [wp]. exists u1, ts1. auto.
Qed.

Lemma g_args_last ts bs : g_args source ts bs -> ordered ts -> ts <> [] /\
  exists pre l b, ts = pre ++ l /\ l <> [] /\ hd_error (rev bs) = Some b /\ (base_span b : res span) = Ok (span_of l).
Proof.
  induction 1 as [ts b Hb|ts b c ts' bs Hb Ha IH]; intros Ho.
  - destruct (base_span_of _ _ Hb Ho) as [Hn Hs]. split; auto. exists [], ts, b. auto.
  - destruct (base_span_of _ _ Hb (ordered_app_l _ _ Ho)) as [Hn Hs]. split; [now apply app_ne_l|].
    assert (Ho' : ordered ts') by (apply ordered_app_r in Ho; now apply ordered_cons in Ho).
    destruct (IH Ho') as (Hn' & pre & l & b' & -> & Hl & Hr & Hs').
    exists (ts ++ (TComma, c) :: pre), l, b'. rewrite <- app_assoc. repeat split; auto.
    simpl. destruct (rev bs); [discriminate|exact Hr].
Qed.

Lemma parse_args_wp p ts fin c : ok p ts fin -> ordered ((TColon, c) :: ts) ->
  wp (parse_args sr source p c) (parses (fun u a => exists bs, g_args source u bs /\
     a = mkargs bs (span_of ((TColon, c) :: u))) ts fin).
Proof.
  intros H Ho. unfold parse_args. apply wp_bind. eapply wp_mono.
  { apply (parse_args_loop_wp (pfuel source) p ts fin [] []); auto. eapply ok_fuel; eauto. }
  intros [bs p1] (u & ts1 & -> & H1 & G). cbn [fst snd app] in *.
  assert (Hu : ordered u) by (apply ordered_cons in Ho; now apply ordered_app_l in Ho).
  destruct (g_args_last _ _ G Hu) as (Hn & pre & l & b & El & Hl & Hr & Hs).
  rewrite Hr. cbn [unwrap bind]. rewrite Hs. cbn [bind wp].
  exists u, ts1. split; auto. split; auto. exists bs. split; auto. cbn [fst]. f_equal.
  rewrite <- (span_of_one TColon c) at 1. rewrite El. apply (combine_spans [(TColon, c)] pre l); auto; try discriminate.
  cbn [app]. rewrite <- El. now apply (ordered_app_l ((TColon, c) :: u) ts1).
Qed.

Lemma expr_span_of ts e : g_expr source ts e -> ordered ts -> ts <> [] /\ (expr_span e : res span) = Ok (span_of ts).
Proof.
  destruct 1 as [ts b Hb| |]; intros Ho.
  - now apply base_span_of.
  - split; auto. destruct ts; discriminate.
  - split; auto. destruct ts; discriminate.
Qed.

Lemma parse_expr_loop_wp fuel : forall p ts fin used e, ok p ts fin -> length ts < fuel ->
  ordered (used ++ ts) -> g_expr source used e ->
  wp (parse_expr_loop sr source fuel p e) (parses (fun u v => g_expr source (used ++ u) v) ts fin).
Proof.
  induction fuel as [|fuel IH]; intros p ts fin used e H Hf Ho Hg; [lia|].
  cbn [parse_expr_loop]. apply wp_bind. eapply wp_mono; [apply is_next_wp; eauto|].
  intros [b p1] (H1 & Hb). destruct b; [|cbn [wp]; exists [], ts; rewrite app_nil_r; auto].
  destruct (Hb eq_refl) as (sp & ts1 & ->). apply wp_bind. eapply wp_mono; [apply expect_wp; eauto|].
  intros [s2 p2] (u2 & ts2 & E2 & H2 & G2). cbn [fst snd] in *. subst u2. cbn [app] in E2. injection E2 as <- <-.
  apply wp_bind. eapply wp_mono; [apply parse_ident_wp; eauto|].
  intros [nm p3] (u3 & ts3 & E3 & H3 & G3). cbn [fst snd] in *. subst u3. cbn [app] in E3. subst ts1.
  destruct nm as [n]. cbn [id_span] in *.
  destruct (expr_span_of _ _ Hg (ordered_app_l _ _ Ho)) as [Hn Hes].
  apply wp_bind. eapply wp_mono; [apply is_next_wp; eauto|].
  intros [c p4] (H4 & Hc). destruct c.
  - destruct (Hc eq_refl) as (cs & ts4 & ->). apply wp_bind. eapply wp_mono; [apply expect_wp; eauto|].
    intros [s5 p5] (u5 & ts5 & E5 & H5 & G5). cbn [fst snd] in *. subst u5. cbn [app] in E5. injection E5 as <- <-.
    apply wp_bind. eapply wp_mono; [apply parse_args_wp; eauto|].
    { apply ordered_app_r in Ho. do 2 apply ordered_cons in Ho. exact Ho. }
    intros [a p6] (u6 & ts6 & -> & H6 & bs & G6 & Ea). cbn [fst snd] in *. subst a.
    rewrite Hes. cbn [bind a_span].
    assert (Hsp : combine_span (span_of used) (span_of ((TColon, cs) :: u6)) =
       span_of (used ++ (TPipe, sp) :: (TIdent, n) :: (TColon, cs) :: u6)).
    { apply (combine_spans used [(TPipe, sp); (TIdent, n)] ((TColon, cs) :: u6)); auto; try discriminate.
      apply (ordered_app_l _ ts6). rewrite <- !app_assoc. exact Ho. }
    rewrite Hsp. eapply wp_mono.
    + apply (IH p6 ts6 fin (used ++ (TPipe, sp) :: (TIdent, n) :: (TColon, cs) :: u6)); auto.
      * simpl in Hf. rewrite app_length in Hf. lia.
      * rewrite <- app_assoc. exact Ho.
      * now constructor.
    + intros [v p7] (u7 & ts7 & -> & H7 & G7). cbn [fst snd] in *.
      exists ((TPipe, sp) :: (TIdent, n) :: (TColon, cs) :: u6 ++ u7), ts7. split; [cbn [app]; now rewrite <- app_assoc|].
      split; auto. cbn [fst]. rewrite <- app_assoc in G7. exact G7.
  - rewrite Hes. cbn [bind id_span].
    assert (Hsp : combine_span (span_of used) n = span_of (used ++ [(TPipe, sp); (TIdent, n)])).
    { rewrite <- (span_of_one TIdent n) at 1.
      apply (combine_spans used [(TPipe, sp)] [(TIdent, n)]); auto; try discriminate.
      apply (ordered_app_l _ ts3). rewrite <- !app_assoc. exact Ho. }
    rewrite Hsp. eapply wp_mono.
    + apply (IH p4 ts3 fin (used ++ [(TPipe, sp); (TIdent, n)])); auto.
      * simpl in Hf. lia.
      * rewrite <- app_assoc. exact Ho.
      * now constructor.
    + intros [v p7] (u7 & ts7 & -> & H7 & G7). cbn [fst snd] in *.
      exists ((TPipe, sp) :: (TIdent, n) :: u7), ts7. split; auto.
      split; auto. cbn [fst]. rewrite <- app_assoc in G7. exact G7.
Qed.

Lemma parse_expr_wp p ts fin : ok p ts fin -> wp (parse_expr sr source p) (parses (g_expr source) ts fin).
Proof.
  intros H. unfold parse_expr. apply wp_bind. eapply wp_mono; [apply parse_base_wp; eauto|].
  intros [b p1] (u1 & ts1 & -> & H1 & G1). cbn [fst snd] in *.
  eapply wp_mono; [apply (parse_expr_loop_wp (pfuel source) p1 ts1 fin u1)|].
  - exact H1.
  - eapply ok_fuel; eauto.
  - eapply ok_ordered; eauto.
  - now constructor.
  - intros [e p2] (u2 & ts2 & -> & H2 & G2). exists (u1 ++ u2), ts2. rewrite app_assoc. auto.
Qed.
End ParseProof.
