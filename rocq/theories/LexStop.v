(** Where the tokenizer's errors are. *)
From Verif Require Import Base Utf8 Ext Errors Syntax AhoCorasick SearchSpec SyntaxSpec Value Ast Lexer LexSpec Wp TrimProof
  LexProof GrammarSpec LayoutSpec BlameSpec CompileErr LitBlame.

Lemma last_shift {A} (x d : A) l : last (x :: l) d = last l x.
Proof. revert x d. induction l as [|y l IH]; intros x d; [reflexivity|]. change (last (y :: l) d = last (y :: l) x). rewrite (IH y d), (IH y x). reflexivity. Qed.

Section LexStop.
Context `{X : Ext}.
Variable sx : syntax.
Hypothesis Hsx : user_syntax sx.
Variable sr : searcher.
Hypothesis Hsr : forall h at_, exists r, @find_at error sr h at_ = Ok r /\
  match r with Some (k, i, j) => best sx h at_ k i j | None => no_occurrence sx h at_ end.
Variable source : str.
Hypothesis Hsrc : valid_utf8 source.
Hypothesis Hclosers : trims_ok sx source.

Notation err_at := (err_at source).
Notation stop := (stop sx source).
Let best_facts := best_facts0 sx Hsx source Hsrc.

Lemma reached_snoc done t sp : reached (done ++ [(t, sp)]) = sp_n sp.
Proof. unfold reached. now rewrite rev_app_distr. Qed.
Lemma in_tag_open done t sp : is_opening t = true -> in_tag (done ++ [(t, sp)]) t sp.
Proof. intros H. exists done, []. auto. Qed.
Lemma in_tag_more done t b x : in_tag done t b -> is_delimiter (fst x) = false -> in_tag (done ++ [x]) t b.
Proof.
  intros (a & inner & -> & Ho & F) Hx. exists a, (inner ++ [x]). split; [now rewrite <- app_assoc|]. split; auto. apply Forall_app. auto.
Qed.
Lemma in_tag_unique done t b t' b' : in_tag done t b -> in_tag done t' b' -> t = t' /\ b = b'.
Proof.
  intros (a & i & -> & Ho & F) (a' & i' & E & Ho' & F'). 
  assert (D : forall (i i' : list tok) a a', Forall (fun u => is_delimiter (fst u) = false) i -> Forall (fun u => is_delimiter (fst u) = false) i' ->
    a ++ (t, b) :: i = a' ++ (t', b') :: i' -> (t, b) = (t', b')).
  { clear a i a' i' F F' E. intros i. induction i as [|x i IH] using rev_ind; intros i' a a' F F' E; destruct i' as [|x' i' _] using rev_ind.
    - apply app_inj_tail in E. tauto.
    - change (a ++ [(t, b)] = a' ++ ((t', b') :: i') ++ [x']) in E. rewrite app_assoc in E. apply app_inj_tail in E as [_ <-]. apply Forall_app in F' as [_ F']. inversion F' as [|? ? F1 _]; subst. cbn in F1.
      destruct t; discriminate.
    - change (a ++ ((t, b) :: i) ++ [x] = a' ++ [(t', b')]) in E. rewrite app_assoc in E. apply app_inj_tail in E as [_ ->]. apply Forall_app in F as [_ F]. inversion F as [|? ? F1 _]; subst. cbn in F1.
      destruct t'; discriminate.
    - change (a ++ ((t, b) :: i) ++ [x] = a' ++ ((t', b') :: i') ++ [x']) in E. rewrite !app_assoc in E. apply app_inj_tail in E as [E _]. apply Forall_app in F as [F _]. apply Forall_app in F' as [F' _]. eauto. }
  specialize (D _ _ _ _ F F' E). injection D as -> ->. auto.
Qed.

(** Where the tokenizer is after the tokens [done]. *)
Definition state_of (t : token) (b : span) : lstate := match t with TBeginComment => LComment b (closing_of t) | _ => LBlock b (closing_of t) end.
Inductive place (done : list tok) : lexer -> Prop :=
| pl_open t b lt : is_opening t = true -> place done (mklexer (sp_n b) (state_of t b) lt (Some (t, b)))
| pl_close t b lt : is_delimiter t = true -> is_opening t = false -> place done (mklexer (sp_n b) LTemplate lt (Some (t, b)))
| pl_text pos lt : (pos = length source \/ (at_rest done /\ pos = reached done)) -> place done (mklexer pos LTemplate lt None)
| pl_tag pos lt b t (path : bool) : pos = reached done -> in_tag done t b -> t <> TBeginComment ->
    place done (mklexer pos (if path then LBlockPath b (closing_of t) else LBlock b (closing_of t)) lt None)
| pl_comment pos lt b : (pos = length source \/ (in_tag done TBeginComment b /\ pos = reached done)) -> place done (mklexer pos (LComment b TEndComment) lt None).

Lemma place_opened done t b lt : is_opening t = true -> place (done ++ [(t, b)]) (mklexer (sp_n b) (state_of t b) lt None).
Proof.
  intros Ho. destruct t; try discriminate; cbn [state_of closing_of].
  - apply (pl_tag _ _ _ b TBeginExpr false); [now rewrite reached_snoc|now apply in_tag_open|discriminate].
  - apply (pl_tag _ _ _ b TBeginBlock false); [now rewrite reached_snoc|now apply in_tag_open|discriminate].
  - apply pl_comment. right. split; [now apply in_tag_open|now rewrite reached_snoc].
Qed.
Lemma place_closed done t b lt : is_delimiter t = true -> is_opening t = false -> place (done ++ [(t, b)]) (mklexer (sp_n b) LTemplate lt None).
Proof. intros H1 H2. apply pl_text. right. split; [right; exists done, t, b; auto|now rewrite reached_snoc]. Qed.

Definition stops_at (done : list tok) (e : error) : Prop := exists sp why, stop done sp why /\ err_at e sp why.
Definition goes (done : list tok) (x : res lexout) : Prop :=
  match x with
  | Ok (Some t, lx) => place (done ++ [t]) lx
  | Err e => stops_at done e
  | _ => True
  end.
Lemma goes_err {A} done reason sp (f : A -> res lexout) : stop done sp reason -> goes done (bind (err_syntax reason source sp) f).
Proof.
  intros S. destruct (err_syntax reason source sp : res A) as [a|e| |] eqn:E; cbn [bind]; try exact I.
  - unfold err_syntax in E. destruct (build_pretty _ _); cbn in E; discriminate.
  - exists sp, reason. split; auto. eapply err_syntax_at; eauto.
Qed.
Lemma goes_err' done reason sp : stop done sp reason -> goes done (err_syntax reason source sp).
Proof.
  intros S. destruct (err_syntax reason source sp : res lexout) as [a|e| |] eqn:E; try exact I.
  - unfold err_syntax in E. destruct (build_pretty _ _); cbn in E; discriminate.
  - exists sp, reason. split; auto. eapply err_syntax_at; eauto.
Qed.

Lemma tag_human k : token_human (tag_token k) = s2b (name_of (tag_token k)).
Proof. now destruct k. Qed.
Lemma opening_tag k : is_opening (tag_token k) = opening k.
Proof. now destruct k. Qed.
Lemma delimiter_tag k : is_delimiter (tag_token k) = true.
Proof. now destruct k. Qed.

(** ** Text *)
Lemma go_text done lt : at_rest done -> reached done < length source ->
  goes done (lex_template sr source (mklexer (reached done) LTemplate lt None) (reached done)).
Proof.
  intros Hr Hlt. unfold lex_template. cbn [lx_next lx_cursor lx_state lx_left_trim]. destruct (Hsr source (reached done)) as (r & -> & Hb). cbn [bind].
  destruct r as [[[k j] n]|].
  - rewrite from_kind_eq, is_begin_opening. destruct (opening k) eqn:Ek; cbn [negb].
    + rewrite token_pair_tag, Ek. cbn [bind].
      assert (Es : match tag_token k with TBeginComment => LComment (mkspan j n) (closing_of (tag_token k)) | _ => LBlock (mkspan j n) (closing_of (tag_token k)) end = state_of (tag_token k) (mkspan j n)) by reflexivity.
      destruct (reached done =? j).
      * cbn [goes]. rewrite Es. apply (place_opened done (tag_token k) (mkspan j n)). now rewrite opening_tag.
      * destruct (trim_raw_token source lt (reached done) j (hyphenated k)) as [[sp lt']|e| |] eqn:Et; cbn [bind goes]; try exact I.
        -- rewrite Es. apply (pl_open _ (tag_token k) (mkspan j n)). now rewrite opening_tag.
        -- exfalso. revert Et. unfold trim_raw_token, slice. destruct (hyphenated k); [destruct (_ && _); cbn [bind]; [|discriminate]|cbn [bind]]; (destruct lt; [destruct (_ && _); discriminate|discriminate]).
    + unfold lex_err_unexpected_token. rewrite tag_human. apply goes_err'. eapply stop_rest; eauto.
  - destruct (trim_raw_token source lt (reached done) (length source) false) as [[sp lt']|e| |] eqn:Et; cbn [bind goes]; try exact I.
    + apply pl_text. auto.
    + exfalso. revert Et. unfold trim_raw_token, slice. cbn [bind]. destruct lt; [destruct (_ && _); discriminate|discriminate].
Qed.

(** ** Comments *)
Lemma go_comment done b lt : in_tag done TBeginComment b -> reached done < length source ->
  goes done (lex_comment sr source (mklexer (reached done) (LComment b TEndComment) lt None) b TEndComment (reached done)).
Proof.
  intros Hi Hlt. unfold lex_comment. cbn [lx_next lx_cursor lx_state lx_left_trim]. destruct (Hsr source (reached done)) as (r & -> & Hb). cbn [bind].
  assert (Nd : forall k j n, best sx source (reached done) k j n -> next_delimiter sx source done k j n).
  { intros k j n H. split; auto. intros t' b' Hi' Nt. destruct (in_tag_unique _ _ _ _ _ Hi Hi') as [<- _]. contradiction. }
  destruct r as [[[k j] n]|].
  - rewrite from_kind_eq, is_begin_opening. destruct (opening k) eqn:Ek.
    + unfold err_unclosed. cbn [token_pair bind]. apply goes_err'. exact (stop_open sx source done TBeginComment b k j n Hi (Nd _ _ _ Hb) Ek).
    + destruct (token_eqb (tag_token k) TEndComment) eqn:Et; cbn [negb].
      * assert (Hd : is_delimiter (tag_token k) = true /\ is_opening (tag_token k) = false) by (split; [apply delimiter_tag|now rewrite opening_tag]).
        destruct (reached done =? j); cbn [goes].
        -- now apply (place_closed done (tag_token k) (mkspan j n)).
        -- now apply (pl_close _ (tag_token k) (mkspan j n)).
      * unfold lex_err_unexpected_token. rewrite tag_human. apply goes_err'. eapply stop_close; eauto. cbn [closing_of]. intros E. rewrite E in Et. discriminate.
  - cbn [goes]. apply pl_comment. auto.
Qed.

(** ** Tags *)
Lemma string_err rest : valid_utf8 rest -> forall off i curr e, off + length rest = length source ->
  lex_string_loop source (char_indices off rest) i curr = Err e ->
  exists body r, rest = flat_map encode body ++ r /\ Forall scalar body /\
    (forall before c after, body = before ++ c :: after -> str_char_ok (last before curr) c) /\
    (r = [] \/ exists r', r = x0a :: r' \/ r = x0d :: r') /\ err_at e (mkspan i (off + length (flat_map encode body))) (s2b "undelimited string").
Proof.
  intros V. induction V as [|c s Hc Hs IH] using valid_ind; intros off i curr e Hl H.
  - cbn in H. unfold err_undelimited_string in H. apply err_syntax_at in H. cbn in Hl. exists [], []. split; [reflexivity|]. split; [constructor|]. split; [intros before c after E; destruct before; discriminate|]. split; [auto|]. cbn. rewrite Nat.add_0_r in *. now rewrite Hl.
  - rewrite char_indices_encode in H by assumption. cbn [lex_string_loop] in H. destruct ((c =? 13) || (c =? 10))%N eqn:E1.
    + unfold err_undelimited_string in H. apply err_syntax_at in H. exists [], (encode c ++ s). split; [reflexivity|]. split; [constructor|].
      split; [intros before c' after E; destruct before; discriminate|]. split; [|cbn; rewrite Nat.add_0_r; exact H].
      right. apply orb_true_iff in E1 as [E1|E1]; apply N.eqb_eq in E1; subst c; exists s; [right|left]; reflexivity.
    + destruct ((c =? 34) && negb (curr =? 92))%N eqn:E2; [discriminate|].
      apply IH in H as (body & r & -> & F & Hch & Hr & He); [|unfold len_utf8; rewrite app_length in Hl; lia].
      exists (c :: body), r. cbn [flat_map]. split; [now rewrite app_assoc|]. split; [now constructor|]. split; [|split; [exact Hr|]].
      * intros before c' after E. destruct before as [|x before]; injection E as <- E.
        -- subst. cbn [last]. apply orb_false_iff in E1 as [E1 E3]. apply N.eqb_neq in E1, E3. repeat split; auto. intros ->. apply andb_false_iff in E2 as [E2|E2]; [discriminate|].
           apply negb_false_iff, N.eqb_eq in E2. exact E2.
        -- rewrite last_shift. eapply Hch; eauto.
      * unfold len_utf8 in He. rewrite app_length, Nat.add_assoc. exact He.
Qed.

Lemma char_ok done t b bs c s : in_tag done t b -> t <> TBeginComment -> no_delimiter sx source done -> scalar c -> valid_utf8 s ->
  skipn (reached done) source = encode c ++ s ->
  match lex_block_char source bs (char_indices (reached done + len_utf8 c) s) (reached done) c with
  | Ok (tk, _) => is_delimiter tk = false
  | Err e => stops_at done e
  | _ => True
  end.
Proof.
  intros Hi Nt Nd Hc Hs E.
  assert (Hlen : reached done + len_utf8 c + length s = length source).
  { assert (L : reached done <= length source). { destruct (Nat.le_gt_cases (reached done) (length source)); auto. rewrite skipn_all2 in E by lia. symmetry in E. apply app_eq_nil in E as [E _]. now apply encode_nonempty in E. }
    apply (f_equal (@length byte)) in E. rewrite skipn_length, app_length in E. unfold len_utf8. lia. }
  unfold lex_block_char.
  destruct (N.eqb_spec c 46); [reflexivity|]. destruct (N.eqb_spec c 124); [reflexivity|]. destruct (N.eqb_spec c 44); [reflexivity|]. destruct (N.eqb_spec c 58); [reflexivity|].
  destruct (N.eqb_spec c 43); [reflexivity|]. destruct (N.eqb_spec c 45); [reflexivity|].
  destruct (N.eqb_spec c 63).
  { subst c. change (encode 63) with (s2b "?") in E. change (len_utf8 63) with 1 in *. unfold lex_question_dot. destruct s as [|x s].
    - cbn [char_indices]. cbn. destruct (err_unexpected_character source (mkspan (reached done) (length source)) : res (token * nat)) as [a|e| |] eqn:Ee; try exact I.
      + unfold err_unexpected_character, err_syntax in Ee. destruct (build_pretty _ _); cbn in Ee; discriminate.
      + apply err_syntax_at in Ee. exists (mkspan (reached done) (length source)), (s2b "unexpected character"). split; auto. eapply stop_question_end; eauto.
    - destruct (valid_cons_inv x s Hs) as (c & r & Hc' & Hr & E2). rewrite E2 in *. rewrite char_indices_encode by assumption. destruct (N.eqb_spec c 46); [reflexivity|].
      match goal with |- match ?y with _ => _ end => destruct y as [a|e| |] eqn:Ee end; try exact I.
      + unfold err_unexpected_character, err_syntax in Ee. destruct (build_pretty _ _); cbn in Ee; discriminate.
      + apply err_syntax_at in Ee. eexists _, _. split; [|exact Ee]. eapply stop_question; eauto. }
  destruct (N.eqb_spec c 34).
  { subst c. change (encode 34) with (s2b """") in E. change (len_utf8 34) with 1 in *. unfold lex_string.
    destruct (lex_string_loop source (char_indices (reached done + 1) s) (reached done) 34) as [[tk j]|e| |] eqn:Ee; try exact I.
    - assert (tk = TString) as ->; [|reflexivity]. revert Ee. clear. generalize (char_indices (reached done + 1) s). intros l. generalize 34%N. induction l as [|[j0 c] l IH]; intros curr; cbn [lex_string_loop].
      + unfold err_undelimited_string, err_syntax. destruct (build_pretty _ _); discriminate.
      + destruct (_ || _)%bool; [unfold err_undelimited_string, err_syntax; destruct (build_pretty _ _); discriminate|]. destruct (_ && _)%bool; [congruence|apply IH].
    - apply (string_err s Hs) in Ee; [|lia]. destruct Ee as (body & r & -> & F & Hch & Hr & He). eexists _, _. split; [|exact He]. eapply stop_string; eauto. }
  destruct (ascii_digit c) eqn:Ed; [now destruct bs|].
  destruct (is_ws c) eqn:Ew; [reflexivity|].
  destruct (is_ident_start c) eqn:Ei.
  { unfold lex_ident_or_keyword, slice. destruct (_ && _); cbn [bind]; [|exact I]. now destruct (existsb _ _). }
  match goal with |- match ?y with _ => _ end => destruct y as [a|e| |] eqn:Ee end; try exact I.
  - unfold err_unexpected_character, err_syntax in Ee. destruct (build_pretty _ _); cbn in Ee; discriminate.
  - apply err_syntax_at in Ee. eexists _, _. split; [|exact Ee]. eapply stop_char; eauto. intros [B|[B|[B|B]]].
    + change (blank c) with (is_ws c) in B. congruence.
    + congruence.
    + change (word_start c) with (is_ident_start c) in B. congruence.
    + cbn in B. intuition congruence.
Qed.

Lemma go_tag done t b lt (path : bool) : in_tag done t b -> t <> TBeginComment -> reached done < length source -> boundary source (reached done) = true ->
  let st := if path then LBlockPath b (closing_of t) else LBlock b (closing_of t) in
  goes done (lex_block sr source (mklexer (reached done) st lt None) (if path then BPath else BUnknown) b (closing_of t) (reached done)).
Proof.
  intros Hi Nt Hlt Bp st. unfold lex_block, starts_with. destruct (Hsr source (reached done)) as (r & -> & Hb). cbn [bind].
  assert (Ht : t = TBeginExpr \/ t = TBeginBlock) by (destruct Hi as (a & i & _ & Ho & _); destruct t; try discriminate; auto; contradiction).
  set (bst := if path then BPath else BUnknown).
  assert (Hnone : no_delimiter sx source done ->
     goes done (let* (tk, j, st0, lt0) := (let* rest := slice_from source (reached done) in
            match char_indices (reached done) rest with
            | [] => Panic
            | (i, c) :: iter =>
              let* (tk, j) := lex_block_char source bst iter i c in
              Ok (tk, j, lx_state (mklexer (reached done) st lt None), lx_left_trim (mklexer (reached done) st lt None))
            end) in
         Ok (Some (tk, mkspan (reached done) j), mklexer j (match bst, tk with
            | BUnknown, TIdent => LBlockPath b (closing_of t)
            | BPath, (TPipe | TComma | TColon) => LBlock b (closing_of t)
            | _, _ => st0 end) lt0 None))).
  { intros Nd. rewrite slice_from_Ok by assumption. cbn [bind].
    assert (Vsk : valid_utf8 (skipn (reached done) source)) by now apply boundary_split.
    destruct (skipn (reached done) source) as [|x rest] eqn:Esk; [exact I|].
    destruct (valid_cons_inv x rest Vsk) as (c & s & Hc & Hs & E2). rewrite E2 in *.
    rewrite char_indices_encode by assumption.
    pose proof (char_ok done t b bst c s Hi Nt Nd Hc Hs Esk) as K. destruct (lex_block_char source bst _ (reached done) c) as [[tk j]|e| |]; try exact I; cbn [bind goes]; [|exact K].
    cbn [lx_state lx_left_trim].
    match goal with |- place _ (mklexer _ ?s _ _) =>
        replace s with (if after_tok path tk then LBlockPath b (closing_of t) else LBlock b (closing_of t))
          by (unfold st, bst; destruct path, tk; reflexivity) end.
    apply pl_tag; [now rewrite reached_snoc|now apply in_tag_more|exact Nt]. }
  destruct r as [[[k i] j]|].
  - pose proof (best_facts _ _ _ _ Hb) as (F1 & F2 & F3 & F4 & F5 & F6 & F7 & F8).
    destruct (Nat.eqb_spec (reached done) i) as [<-|Hne].
    + assert (Nx : next_delimiter sx source done k (reached done) j) by (split; auto).
      cbn [bind]. rewrite from_kind_eq, is_begin_opening. destruct (opening k) eqn:Ek.
      * unfold err_unclosed. destruct Ht as [->| ->]; cbn [closing_of token_pair bind]; apply goes_err; [exact (stop_open sx source done TBeginExpr b k (reached done) j Hi Nx Ek)|exact (stop_open sx source done TBeginBlock b k (reached done) j Hi Nx Ek)].
      * destruct (token_eqb (tag_token k) (closing_of t)) eqn:Et; cbn [negb].
        -- cbn [bind goes].
           match goal with |- place _ (mklexer _ ?s _ _) => replace s with LTemplate by (destruct bst, k; try discriminate; reflexivity) end.
           apply (place_closed done (tag_token k) (mkspan (reached done) j)); [apply delimiter_tag|now rewrite opening_tag].
        -- unfold lex_err_unexpected_token. rewrite tag_human. apply goes_err. eapply stop_close; eauto. intros E. rewrite E, (proj2 (token_eqb_eq _ _) eq_refl) in Et. discriminate.
    + cbn [bind]. apply Hnone. intros k' p' Hin. apply F8 with k'; auto. lia.
  - cbn [bind]. apply Hnone. intros k' p' Hin. now apply (Hb k' p' (reached done)).
Qed.

Lemma skip_lt pos x rest : skipn pos source = x :: rest -> pos < length source.
Proof. intros H. apply (f_equal (@length byte)) in H. rewrite skipn_length in H. simpl in H. lia. Qed.
Lemma go done lx pos md : inv sx source lx pos md -> place done lx -> goes done (lex sr source lx).
Proof.
  intros Hv Hp. unfold lex. destruct Hp as [t b lt Ho|t b lt Hd Ho|p lt Hp|p lt b t path Hp Hi Nt|p lt b Hp]; cbn [lx_next lx_cursor lx_state lx_left_trim].
  - cbn [goes]. now apply place_opened.
  - cbn [goes]. now apply place_closed.
  - assert (Bp : boundary source p = true) by (inversion Hv; subst; assumption). rewrite slice_from_Ok by assumption. cbn [bind].
    destruct (skipn p source) as [|x rest] eqn:Esk; [exact I|]. apply skip_lt in Esk. destruct Hp as [->|[Hr ->]]; [lia|]. now apply go_text.
  - assert (Bp : boundary source p = true) by (inversion Hv; subst; assumption). rewrite slice_from_Ok by assumption. cbn [bind].
    destruct (skipn p source) as [|x rest] eqn:Esk; [exact I|]. apply skip_lt in Esk. subst p.
    pose proof (go_tag done t b lt path Hi Nt Esk Bp) as K. destruct path; exact K.
  - assert (Bp : boundary source p = true) by (inversion Hv; subst; assumption). rewrite slice_from_Ok by assumption. cbn [bind].
    destruct (skipn p source) as [|x rest] eqn:Esk; [exact I|]. apply skip_lt in Esk. destruct Hp as [->|[Hr ->]]; [lia|]. now apply go_comment.
Qed.

Lemma lexes_stop lx ts fin : lexes sr source lx ts fin -> forall done pos md e, fin = Some e -> inv sx source lx pos md -> place done lx -> stops_at (done ++ ts) e.
Proof.
  induction 1 as [lx Hl|lx e0 Hl|lx [t sp] lx' ts fin Hl Hls IH]; intros done pos md e Ef Hv Hp.
  - discriminate.
  - injection Ef as ->. rewrite app_nil_r. pose proof (go done lx pos md Hv Hp) as G. rewrite Hl in G. exact G.
  - pose proof (go done lx pos md Hv Hp) as G. rewrite Hl in G. cbn [goes] in G.
    pose proof (step_ok sx Hsx sr Hsr source Hsrc Hclosers lx pos md Hv) as Hs. rewrite Hl in Hs. cbn [wp step_post] in Hs. destruct Hs as (_ & pos' & md' & Hv' & _).
    specialize (IH (done ++ [(t, sp)]) pos' md' e Ef Hv' G). now rewrite <- app_assoc in IH.
Qed.
Theorem lexes_err ts e : lexes sr source lexer_new ts (Some e) -> stops_at ts e.
Proof.
  intros H. apply (lexes_stop _ _ _ H [] 0 (MText false) e eq_refl); [apply inv_new|]. apply pl_text. right. split; [left; reflexivity|reflexivity].
Qed.
End LexStop.
