(** The parser's loop over statements follows the automaton, and its errors are where
    the automaton stops. *)
From Verif Require Import Base Utf8 Ext Errors Syntax AhoCorasick SearchSpec SyntaxSpec Value Ast Lexer LexSpec Wp TrimProof
  LexProof GrammarSpec LayoutSpec BlameSpec Parser LitProof TokStream ParseProof ParseSound CompileErr Words Automaton LitBlame Blame.

Section TagBlame.
Context `{X : Ext}.
Variable sx : syntax.
Hypothesis Hsx : user_syntax sx.
Variable sr : searcher.
Variable source : str.
Hypothesis Hsrc : valid_utf8 source.
Hypothesis Hne : source <> [].

Notation W := (words source).
Notation S_ := (sense source).
Notation ok := (ok sx sr source).
Notation err_at := (err_at source).
Notation halt := (halt source).

(** ** The open blocks *)
Inductive absb : blocks -> list frame -> Prop :=
| ab_nil : absb [] []
| ab_if n c sp he bl st : absb bl st -> absb (StIf false n c sp he :: bl) (FIf he :: st)
| ab_elif n c sp he ei n' c' sp' bl st : absb (StIf ei n' c' sp' true :: bl) (FIf true :: st) ->
    absb (StIf true n c sp he :: StIf ei n' c' sp' true :: bl) (FIf he :: st)
| ab_for v e sp bl st : absb bl st -> absb (StFor v e sp :: bl) (FFor :: st)
| ab_with e n sp bl st : absb bl st -> absb (StWith e n sp :: bl) (FWith :: st).

Lemma absb_if ei n c sp he bl st : absb (StIf ei n c sp he :: bl) st -> exists st', st = FIf he :: st' /\
  forall he', absb (StIf ei n c sp he' :: bl) (FIf he' :: st').
Proof. intros H. inversion H; subst; eexists; (split; [reflexivity|]); intros he'; now constructor. Qed.
Lemma absb_nil bl st : absb bl st -> (bl = [] <-> st = []).
Proof. destruct 1; split; intros E; try discriminate E; reflexivity. Qed.

(** The names of the blocks. *)
Definition bname (b : bstate) : str := match b with StIf _ _ _ _ _ => s2b "if" | StFor _ _ _ => s2b "for" | StWith _ _ _ => s2b "with" end.
Definition name_eff (b : eff) : str :=
  match b with
  | bIf => s2b "if" | bElse => s2b "else" | bElseIf => s2b "else if" | bEndIf => s2b "endif" | bFor => s2b "for" | bEndFor => s2b "endfor"
  | bWith => s2b "with" | bEndWith => s2b "endwith" | bInclude => s2b "include"
  end.
Lemma tag_name ws b : w_tag ws b -> block_name ws (name_eff b).
Proof.
  intros (inner & -> & H). destruct H; cbn [app name_eff]; try apply bn_else; try apply bn_else_if; unfold key; apply bn_other; vm_compute; discriminate.
Qed.
(** The span and the name of the oldest open block. *)
Definition bmark (b : bstate) : span * str := (bspan b, bname b).
Definition bottom (bl : blocks) : option (span * str) := match rev bl with b :: _ => Some (bmark b) | [] => None end.
Lemma bottom_cons b bl : bl <> [] -> bottom (b :: bl) = bottom bl.
Proof.
  intros N. unfold bottom. cbn [rev]. destruct (rev bl) as [|b' r] eqn:E; auto. destruct N. rewrite <- (rev_involutive bl), E. reflexivity.
Qed.
Lemma bottom_swap b b' bl : bmark b = bmark b' -> bottom (b :: bl) = bottom (b' :: bl).
Proof.
  intros E. destruct bl as [|x bl]; [unfold bottom; cbn; now rewrite E|]. rewrite (bottom_cons b), (bottom_cons b') by discriminate. reflexivity.
Qed.

(** What the blocks of a tag at [sp] do to the oldest open block. *)
Definition keeps (sp : span * str) (bl bl' : blocks) : Prop :=
  bl' = [] \/ (bl = [] /\ bottom bl' = Some sp) \/ (bl <> [] /\ bottom bl' = bottom bl).
Lemma keeps_push sp bl b : bmark b = sp -> keeps sp bl (b :: bl).
Proof.
  intros <-. right. destruct bl as [|x bl]; [left; auto|right]. split; [discriminate|]. apply bottom_cons. discriminate.
Qed.
Lemma keeps_pop sp bl b : keeps sp (b :: bl) bl.
Proof. destruct bl as [|x bl]; [left; auto|]. right. right. split; [discriminate|]. symmetry. apply bottom_cons. discriminate. Qed.
Lemma keeps_pops sp b bl bl' : keeps sp bl bl' -> bl <> [] -> keeps sp (b :: bl) bl'.
Proof.
  intros [->|[[-> _]|[N E]]] Nb; [left; auto|contradiction|]. right. right. split; [discriminate|]. now rewrite bottom_cons.
Qed.
Lemma keeps_same sp bl : keeps sp bl bl.
Proof. destruct bl; [left; auto|]. right. right. split; [discriminate|reflexivity]. Qed.

Definition handles (b : eff) (sp : span) (bl : blocks) (st : list frame) (x : res (option stmt * blocks * scopes)) : Prop :=
  match x with
  | Ok (_, bl', _) => exists st', effect st b = Some st' /\ absb bl' st' /\ keeps (sp, name_eff b) bl bl'
  | Err e => effect st b = None /\ err_at e sp (s2b "unexpected `" ++ name_eff b ++ s2b "` block")
  | _ => True
  end.
Lemma handles_err {A} b sp bl st reason (f : A -> res (option stmt * blocks * scopes)) : reason = s2b "unexpected `" ++ name_eff b ++ s2b "` block" -> effect st b = None -> handles b sp bl st (bind (err_syntax reason source sp) f).
Proof.
  intros Er N. destruct (err_syntax reason source sp : res A) as [a|e| |] eqn:E; try exact I.
  - unfold err_syntax in E. destruct (build_pretty _ _); cbn in E; discriminate.
  - split; auto. rewrite <- Er. eapply err_syntax_at; eauto.
Qed.
Lemma handles_err' b sp bl st reason : reason = s2b "unexpected `" ++ name_eff b ++ s2b "` block" -> effect st b = None -> handles b sp bl st (err_syntax reason source sp).
Proof.
  intros Er N. destruct (err_syntax reason source sp : res (option stmt * blocks * scopes)) as [a|e| |] eqn:E; try exact I.
  - unfold err_syntax in E. destruct (build_pretty _ _); cbn in E; discriminate.
  - split; auto. rewrite <- Er. eapply err_syntax_at; eauto.
Qed.

Lemma end_if_handles nm sp bl : forall sc st,
  absb bl st -> match end_if_loop source bl sc sp with
    | Ok (_, bl', _) => exists he st', st = FIf he :: st' /\ absb bl' st' /\ keeps (sp, nm) bl bl'
    | Err e => (forall he st', st <> FIf he :: st') /\ err_at e sp (s2b "unexpected `endif` block")
    | _ => True end.
Proof.
  assert (Er : forall st bl, (forall he st', st <> FIf he :: st') -> match err_syntax (s2b "unexpected `endif` block") source sp : res (stmt * blocks * scopes) with
    | Ok (_, bl', _) => exists he st', st = FIf he :: st' /\ absb bl' st' /\ keeps (sp, nm) bl bl'
    | Err e => (forall he st', st <> FIf he :: st') /\ err_at e sp (s2b "unexpected `endif` block")
    | _ => True end).
  { intros st bl0 N. destruct (err_syntax _ source sp : res (stmt * blocks * scopes)) as [a|e| |] eqn:E; try exact I.
    - unfold err_syntax in E. destruct (build_pretty _ _); cbn in E; discriminate.
    - split; auto. eapply err_syntax_at; eauto. }
  induction bl as [|b bl IH]; intros sc st H.
  - cbn [end_if_loop]. apply Er. inversion H. discriminate.
  - destruct b as [ei n c sp0 he|v e sp0|e n sp0]; [|apply Er; inversion H; discriminate|apply Er; inversion H; discriminate].
    cbn [end_if_loop]. match goal with |- context [bind ?x _] => assert (Ne : forall e, x <> Err e) by (destruct he; [destruct sc; discriminate|discriminate]); destruct x as [[eb sc1]|e| |] end; try exact I; [|now destruct (Ne e)].
    cbn [bind]. destruct sc1 as [|tb sc2]; [exact I|]. destruct ei; cbn [negb].
    + inversion H as [| |n0 c0 sp1 he0 ei' n' c' sp' bl0 st0 H'| |]; subst. destruct sc2 as [|s2 sc2]; [exact I|]. cbn [push_stmt bind].
      specialize (IH (( s2 ++ [SIf n c tb eb]) :: sc2) (FIf true :: st0) H'). destruct (end_if_loop source (StIf ei' n' c' sp' true :: bl0) _ sp) as [[[s3 bl3] sc3]|e| |]; try exact I.
      * destruct IH as (he1 & st1 & E & A & K). injection E as <- <-. exists he, st0. split; auto. split; auto. apply keeps_pops; auto. discriminate.
      * destruct IH as [N _]. destruct (N true st0 eq_refl).
    + inversion H; subst. exists he, st0. split; auto. split; auto. apply keeps_pop.
Qed.

Lemma handle_handles b sp bl sc st : absb bl st -> handles (eff_of b) sp bl st (handle_block source b sp bl sc).
Proof.
  intros H. destruct b as [n e| |n e| |v e| |e n| |nm g]; cbn [handle_block eff_of].
  - exists (FIf false :: st). split; [destruct st; reflexivity|]. split; [now constructor|]. now apply keeps_push.
  - unfold set_has_else. destruct bl as [|[ei n0 c0 s0 [|]|v0 e0 s0|e0 n0 s0] bl].
    + apply handles_err; [reflexivity|]. inversion H. reflexivity.
    + apply handles_err; [reflexivity|]. apply absb_if in H as (st' & -> & _). reflexivity.
    + cbn [bind]. apply absb_if in H as (st' & -> & Hs). eexists. split; [reflexivity|]. split; [apply Hs|]. right. right. split; [discriminate|]. now apply bottom_swap.
    + apply handles_err; [reflexivity|]. inversion H; subst. reflexivity.
    + apply handles_err; [reflexivity|]. inversion H; subst. reflexivity.
  - unfold set_has_else. destruct bl as [|[ei n0 c0 s0 [|]|v0 e0 s0|e0 n0 s0] bl].
    + apply handles_err; [reflexivity|]. inversion H. reflexivity.
    + apply handles_err; [reflexivity|]. apply absb_if in H as (st' & -> & _). reflexivity.
    + cbn [bind]. apply absb_if in H as (st' & -> & Hs). eexists. split; [reflexivity|]. split; [apply ab_elif, Hs|]. right. right. split; [discriminate|].
      rewrite bottom_cons by discriminate. now apply bottom_swap.
    + apply handles_err; [reflexivity|]. inversion H; subst. reflexivity.
    + apply handles_err; [reflexivity|]. inversion H; subst. reflexivity.
  - pose proof (end_if_handles (s2b "endif") sp bl sc st H) as K. destruct (end_if_loop source bl sc sp) as [[[s1 bl1] sc1]|e| |]; try exact I; cbn [bind].
    + destruct K as (he & st' & -> & A & K). exists st'. auto.
    + destruct K as [N K]. split; auto. destruct st as [|[he| |] st']; try reflexivity. destruct (N he st' eq_refl).
  - exists (FFor :: st). split; [destruct st; reflexivity|]. split; [now constructor|]. now apply keeps_push.
  - destruct bl as [|[ei n0 c0 s0 he0|v0 e0 s0|e0 n0 s0] bl]; inversion H; subst; try (apply handles_err'; [reflexivity|]; reflexivity).
    destruct sc as [|body sc]; [exact I|]. eexists. split; [reflexivity|]. split; auto. apply keeps_pop.
  - exists (FWith :: st). split; [destruct st; reflexivity|]. split; [now constructor|]. now apply keeps_push.
  - destruct bl as [|[ei n0 c0 s0 he0|v0 e0 s0|e0 n0 s0] bl]; inversion H; subst; try (apply handles_err'; [reflexivity|]; reflexivity).
    destruct sc as [|body sc]; [exact I|]. eexists. split; [reflexivity|]. split; auto. apply keeps_pop.
  - exists st. split; [destruct st; reflexivity|]. split; auto. apply keeps_same.
Qed.

(** ** Statements *)
(** One statement token or tag, read by the automaton. *)
Definition item (T : list tok) (st st' : list frame) : Prop :=
  T <> [] /\ frun (st, QText) (W T) (st', QText) /\
  forall u v c, T = u ++ v -> u <> [] -> v <> [] -> frun (st, QText) (W u) c -> snd c <> QText.

Lemma tag_start_words part : tag_start part -> tag_words (W part).
Proof.
  intros (t & b & inner & -> & Ho & F). exists (S_ (t, b)), (W inner). split; [reflexivity|]. split; [exact Ho|]. unfold words. rewrite Forall_map. exact F.
Qed.
Lemma plain_words inner : Forall plain (W inner) -> Forall (fun u => is_delimiter (fst u) = false) inner.
Proof. unfold words. intros H. rewrite Forall_map in H. exact H. Qed.

Lemma item_tag part w st st' s o : tag_start part -> srun QText (W part) s -> step s (S_ w) QText o ->
  match o with None => st' = st | Some b => effect st b = Some st' end -> item (part ++ [w]) st st'.
Proof.
  intros T R S E. split; [now destruct part|]. split.
  - rewrite words_app. apply frun_app. exists (st, s). split; [now apply srun_frun|]. exists (st', QText). split; [|reflexivity]. exists o. auto.
  - intros u v c Ev Nu Nv Rc. destruct (exists_last Nv) as (v0 & w0 & ->). rewrite app_assoc in Ev. apply app_inj_tail in Ev as [-> _].
    rewrite words_app in R. apply srun_app in R as (s1 & R1 & R2). rewrite (frun_fun _ _ _ _ Rc (srun_frun st _ _ _ R1)). cbn [snd].
    assert (Tu : tag_start u). { destruct T as (t & b & inner & Et & Ho & F). destruct u as [|x u]; [contradiction|]. cbn [app] in Et. injection Et as -> <-. exists t, b, u. split; auto. split; auto. apply Forall_app in F. tauto. }
    apply tag_start_words in Tu. now destruct (tag_inv _ _ Tu R1).
Qed.

(** The error [e] is where the automaton stops, in a tag that it can read from [st]. *)
Inductive wrong (st : list frame) (all : list tok) (fin : option error) (e : error) : Prop :=
| wr_halt part rest s : all = part ++ rest -> tag_start part -> srun QText (W part) s -> halt s part rest fin e -> wrong st all fin e
| wr_tag part w rest s b : all = part ++ w :: rest -> tag_start part -> full_tag (part ++ [w]) -> srun QText (W part) s -> step s (S_ w) QText (Some b) -> effect st b = None ->
    err_at e (span_of (part ++ [w])) (s2b "unexpected `" ++ name_eff b ++ s2b "` block") -> wrong st all fin e.

Lemma close_tag k s o p r fin tk : ok p r fin -> ends source k s r -> literal tk = false -> (forall x, after_expr k (tk, x) = Some (QText, o)) ->
  (forall t x, t <> tk -> after_expr k (t, x) = None) ->
  match expect sr source p tk with
  | Ok (es, p') => exists r', r = (tk, es) :: r' /\ ok p' r' fin /\ step s (S_ (tk, es)) QText o
  | Err e => halt s [] r fin e
  | _ => True
  end.
Proof.
  intros H [[N Hex] He] Hl Hy Hn. pose proof (wants_token source s tk QText o Hl (fun sp => Hex _ _ (Hy (snd (S_ (tk, sp)))))) as Hwt. unfold expect. destruct r as [|[t es] r'].
  - destruct fin as [e|].
    + rewrite (ok_next_err _ Hsx _ _ Hsrc _ _ H). cbn [bind]. reflexivity.
    + destruct (ok_next_nil _ Hsx _ _ Hsrc _ H) as (p' & -> & H'). cbn [bind]. pose proof (spec_eof source s (token_human tk) (fun (_ : span * parser) _ _ => True) (or_introl Hwt)) as K.
      destruct (err_unexpected_eof source (token_human tk) : res (span * parser)) as [a|e| |] eqn:E; try exact I.
      * unfold err_unexpected_eof, err_syntax in E. destruct (build_pretty _ _); cbn in E; discriminate.
      * destruct K as (u & r & s' & Eu & R & K). symmetry in Eu. apply app_eq_nil in Eu as [-> ->]. cbn in R. subst s'. exact K.
  - destruct (ok_next _ Hsx _ _ Hsrc _ _ _ _ H) as (p' & -> & H'). cbn [bind]. specialize (He _ _ eq_refl). destruct (token_eqb t tk) eqn:E.
    + apply token_eqb_eq in E. subst t. exists r'. split; auto. split; auto. split; [|split; [now apply (fits_of source)|apply clean_sense]]. rewrite He. apply Hy.
    + assert (Nt : t <> tk) by (intros ->; rewrite (proj2 (token_eqb_eq tk tk) eq_refl) in E; discriminate).
      unfold err_unexpected_token. match goal with |- context [err_syntax ?r source es] => destruct (err_syntax r source es : res (span * parser)) as [a|e| |] eqn:E2 end; try exact I.
      * unfold err_syntax in E2. destruct (build_pretty _ _); cbn in E2; discriminate.
      * split; [|left; eexists; split; [eapply err_syntax_at; eauto|now apply (grumble_expected source s tk (t, es))]]. apply nostep_next. rewrite He. now apply Hn.
Qed.

Lemma irun_part s1 t b used s' : step QText (S_ (t, b)) s1 None -> is_opening t = true -> s1 <> QText -> irun s1 (W used) s' ->
  tag_start ((t, b) :: used) /\ srun QText (W ((t, b) :: used)) s' /\ s' <> QText.
Proof.
  intros S Ho N R. destruct (irun_inner _ _ _ R N) as [F N']. split; [|split; [|exact N']].
  - exists t, b, used. split; auto. split; auto. now apply plain_words.
  - exists s1. split; auto. now apply irun_srun.
Qed.
Lemma open_step t b s1 : nextq QText (S_ (t, b)) = Some (s1, None) -> is_opening t = true -> step QText (S_ (t, b)) s1 None.
Proof. intros E Ho. split; auto. split; [|apply clean_sense]. unfold fits. cbn. destruct t; try discriminate; exact I. Qed.

Definition stmt_spec (st : list frame) (bl : blocks) (all : list tok) (fin : option error) (x : res (option stmt * blocks * scopes * parser)) : Prop :=
  match x with
  | Ok (_, bl', _, p') => exists T rest st', all = T ++ rest /\ ok p' rest fin /\ top source rest /\ item T st st' /\ absb bl' st' /\
      (bl' = [] \/ (bl = [] /\ full_tag T /\ exists name, block_name (W T) name /\ bottom bl' = Some (span_of T, name)) \/ (bl <> [] /\ bottom bl' = bottom bl))
  | Err e => wrong st all fin e
  | _ => True
  end.

Lemma stmt_ok t b p ts fin bl sc st : ok p ts fin -> top source ((t, b) :: ts) -> ordered source ((t, b) :: ts) -> absb bl st ->
  stmt_spec st bl ((t, b) :: ts) fin (parse_stmt sr source t b p bl sc).
Proof.
  intros H Ht Ho Hb. unfold parse_stmt.
  assert (Keep : bl = [] \/ (bl <> [] /\ bottom bl = bottom bl)).
  { destruct bl; [left; auto|]. right. split; [discriminate|auto]. }
  destruct t; try exact I.
  - (* text *)
    exists [(TRaw, b)], ts, st. split; auto. split; auto. split; [destruct Ht as (at_ & Ht); inversion Ht as [|? ? ? ? tx ? W1 W2 W3 W4 W5]; subst; cbn in W4; subst tx; eexists; exact W5|].
    split; [|split; [exact Hb|tauto]]. split; [discriminate|]. split.
    + exists (st, QText). split; [|reflexivity]. exists None. split; [|reflexivity]. split; [reflexivity|]. split; [exact I|apply clean_sense].
    + intros u v c E Nu Nv. destruct u as [|x [|y u]]; [contradiction| |]; injection E as <- E; [destruct v; [contradiction|discriminate]|discriminate].
  - (* expression *)
    pose proof (open_step TBeginExpr b (QBase CInline false) eq_refl eq_refl) as S1.
    pose proof (spec_expr sx Hsx sr source Hsrc Hne CInline (QBase CInline false) p ts fin H (at_qbase source CInline false ts)) as K.
    destruct (parse_expr sr source p) as [[x p1]|e| |]; try exact I; cbn [bind]; destruct K as (u & r & s' & -> & R & K).
    2:{ destruct (irun_part _ _ _ _ _ S1 eq_refl ltac:(discriminate) R) as (T & R' & _). eapply wr_halt; [|exact T|exact R'|]; [reflexivity|]. now apply (halt_app source s' [(TBeginExpr, b)]). }
    destruct K as [H1 He]. destruct (irun_part _ _ _ _ _ S1 eq_refl ltac:(discriminate) R) as (T & R' & _).
    pose proof (close_tag CInline s' None p1 r fin TEndExpr H1 He eq_refl (fun x => eq_refl)) as C.
    destruct (expect sr source p1 TEndExpr) as [[es p2]|e| |]; try exact I; cbn [bind].
    + destruct C as (r' & -> & H2 & S2); [intros t x0 N; cbn; destruct t; try reflexivity; contradiction|].
      exists (((TBeginExpr, b) :: u) ++ [(TEndExpr, es)]), r', st. split; [now rewrite <- app_assoc|]. split; auto. split; [eapply (top_end _ _ _ u TEndExpr es); eauto|].
      split; [eapply (item_tag _ _ st st s' None); eauto|]. split; [auto|tauto].
    + eapply wr_halt; [|exact T|exact R'|]; [reflexivity|]. rewrite <- (app_nil_r ((TBeginExpr, b) :: u)). apply halt_app, C. intros t x0 N. cbn. destruct t; try reflexivity; contradiction.
  - (* block *)
    pose proof (open_step TBeginBlock b QBlock eq_refl eq_refl) as S1.
    pose proof (spec_block sx Hsx sr source Hsrc Hne p ts fin H) as K.
    destruct (parse_block sr source p) as [[x p1]|e| |]; try exact I; cbn [bind]; destruct K as (u & r & s' & -> & R & K).
    2:{ destruct (irun_part _ _ _ _ _ S1 eq_refl ltac:(discriminate) R) as (T & R' & _). eapply wr_halt; [|exact T|exact R'|]; [reflexivity|]. now apply (halt_app source s' [(TBeginBlock, b)]). }
    destruct K as [H1 He]. destruct (irun_part _ _ _ _ _ S1 eq_refl ltac:(discriminate) R) as (T & R' & _).
    pose proof (close_tag (CBlock (eff_of x)) s' (Some (eff_of x)) p1 r fin TEndBlock H1 He eq_refl (fun x => eq_refl)) as C.
    destruct (expect sr source p1 TEndBlock) as [[es p2]|e| |]; try exact I; cbn [bind].
    2:{ eapply wr_halt; [|exact T|exact R'|]; [reflexivity|]. rewrite <- (app_nil_r ((TBeginBlock, b) :: u)). apply halt_app, C. intros t x0 N. cbn. destruct t; try reflexivity; contradiction. }
    destruct C as (r' & -> & H2 & S2); [intros t x0 N; cbn; destruct t; try reflexivity; contradiction|].
    assert (Es : combine_span b es = span_of (((TBeginBlock, b) :: u) ++ [(TEndBlock, es)])).
    { cbn [app]. apply (combine_toks source). apply (ordered_app_l source _ r'). cbn [app]. rewrite <- app_assoc. exact Ho. }
    assert (Ft : full_tag (((TBeginBlock, b) :: u) ++ [(TEndBlock, es)])).
    { exists TBeginBlock, b, u, es. split; [reflexivity|]. split; [reflexivity|]. destruct T as (t & b' & inner & E & _ & F). injection E as <- <- <-. exact F. }
    pose proof (handle_handles x (combine_span b es) bl sc st Hb) as K. destruct (handle_block source x (combine_span b es) bl sc) as [[[st1 bl1] sc1]|e| |]; try exact I; cbn [bind].
    + destruct K as (st' & Ee & Ha & Hk). exists (((TBeginBlock, b) :: u) ++ [(TEndBlock, es)]), r', st'. split; [now rewrite <- app_assoc|]. split; auto.
      split; [eapply (top_end _ _ _ u TEndBlock es); eauto|]. split; [eapply (item_tag _ _ st st' s' (Some (eff_of x))); eauto|]. split; auto. rewrite Es in Hk. destruct Hk as [->|[[-> Hk]|Hk]]; auto. right. left. split; auto. split; auto.
      eexists. split; [|exact Hk]. apply tag_name. rewrite words_app. apply tag_start_words in T. destruct (tag_inv _ _ T R') as [N I0]. destruct (inv_step _ _ _ _ _ I0 S2) as [[_ D]|(N' & _)]; [exact D|contradiction].
    + destruct K as [Ee K]. rewrite Es in K. eapply wr_tag; [|exact T|exact Ft|exact R'|exact S2|exact Ee|exact K]. reflexivity.
  - (* comment *)
    pose proof (open_step TBeginComment b QC1 eq_refl eq_refl) as S1.
    assert (T0 : tag_start [(TBeginComment, b)]) by (exists TBeginComment, b, []; auto).
    assert (R0 : srun QText (W [(TBeginComment, b)]) QC1) by (exists QC1; split; [exact S1|reflexivity]).
    pose proof (spec_expect sx Hsx sr source Hsrc QC1 QC2 p ts fin TRaw (fun x => Ok x) (fun '(_, p') s' r => s' = QC2 /\ ok p' r fin) H eq_refl ltac:(discriminate) (fun _ => eq_refl)) as K.
    destruct (expect sr source p TRaw) as [[rs p1]|e| |]; try exact I; cbn [bind] in K |- *; specialize (K ltac:(intros [t y] r _ N; cbn in N |- *; destruct t; try reflexivity; contradiction) ltac:(intros sp r p' _ H'; apply spec_ok; auto)).
    2:{ destruct K as (u & r & s' & -> & R & K). destruct (irun_part _ _ _ _ _ S1 eq_refl ltac:(discriminate) R) as (T & R' & _). eapply wr_halt; [|exact T|exact R'|]; [reflexivity|]. now apply (halt_app source s' [(TBeginComment, b)]). }
    destruct K as (u & r & s' & -> & R & -> & H1). destruct (irun_part _ _ _ _ _ S1 eq_refl ltac:(discriminate) R) as (T & R' & _).
    assert (C : match expect sr source p1 TEndComment with
      | Ok (es, p') => exists r', r = (TEndComment, es) :: r' /\ ok p' r' fin /\ step QC2 (S_ (TEndComment, es)) QText None
      | Err e => halt QC2 [] r fin e | _ => True end).
    { unfold expect. destruct r as [|[t es] r'].
      - destruct fin as [e|].
        + rewrite (ok_next_err _ Hsx _ _ Hsrc _ _ H1). cbn [bind]. reflexivity.
        + destruct (ok_next_nil _ Hsx _ _ Hsrc _ H1) as (p' & -> & H'). cbn [bind]. pose proof (spec_eof source QC2 (token_human TEndComment) (fun (_ : span * parser) _ _ => True) (or_introl (wants_token source QC2 TEndComment QText None eq_refl (fun _ => eq_refl)))) as K.
          destruct (err_unexpected_eof source (token_human TEndComment) : res (span * parser)) as [a|e| |] eqn:E; try exact I.
          * unfold err_unexpected_eof, err_syntax in E. destruct (build_pretty _ _); cbn in E; discriminate.
          * destruct K as (u1 & r1 & s1 & Eu & R1 & K). symmetry in Eu. apply app_eq_nil in Eu as [-> ->]. cbn in R1. subst s1. exact K.
      - destruct (ok_next _ Hsx _ _ Hsrc _ _ _ _ H1) as (p' & -> & H'). cbn [bind]. destruct (token_eqb t TEndComment) eqn:E.
        + apply token_eqb_eq in E. subst t. exists r'. split; auto. split; auto. split; [reflexivity|split; [exact I|apply clean_sense]].
        + assert (Nt : t <> TEndComment) by (intros ->; discriminate).
          unfold err_unexpected_token. match goal with |- context [err_syntax ?r source es] => destruct (err_syntax r source es : res (span * parser)) as [a|e| |] eqn:E2 end; try exact I.
          * unfold err_syntax in E2. destruct (build_pretty _ _); cbn in E2; discriminate.
          * split; [|left; eexists; split; [eapply err_syntax_at; eauto|apply (grumble_expected source QC2 TEndComment (t, es)); [exact (wants_token source QC2 TEndComment QText None eq_refl (fun _ => eq_refl))|exact Nt]]]. apply nostep_next. cbn. destruct t; try reflexivity; contradiction. }
    destruct (expect sr source p1 TEndComment) as [[es p2]|e| |]; try exact I; cbn [bind].
    + destruct C as (r' & -> & H2 & S2). exists (((TBeginComment, b) :: u) ++ [(TEndComment, es)]), r', st. split; [now rewrite <- app_assoc|]. split; auto.
      split; [eapply (top_end _ _ _ u TEndComment es); eauto|]. split; [eapply (item_tag _ _ st st QC2 None); eauto|]. split; [auto|tauto].
    + eapply wr_halt; [|exact T|exact R'|]; [reflexivity|]. rewrite <- (app_nil_r ((TBeginComment, b) :: u)). apply halt_app, C.
Qed.

(** ** The whole source *)
(** The oldest open block begins with [tag]. *)
Definition opened (done : list tok) (bl : blocks) : Prop :=
  bl = [] \/ exists whole tag rest, done = whole ++ tag ++ rest /\ frun ([], QText) (W whole) ([], QText) /\ full_tag tag /\ (exists name, block_name (W tag) name /\ bottom bl = Some (span_of tag, name)) /\
    forall body after, rest = body ++ after -> ~ frun ([], QText) (W (whole ++ tag ++ body)) ([], QText).

Inductive failure (all : list tok) (fin : option error) (e : error) : Prop :=
| fl_stop st : frun ([], QText) (W all) (st, QText) -> fin = Some e -> failure all fin e
| fl_wrong whole rest st : all = whole ++ rest -> frun ([], QText) (W whole) (st, QText) -> wrong st rest fin e -> failure all fin e
| fl_block st whole tag rest name : fin = None -> frun ([], QText) (W all) (st, QText) -> all = whole ++ tag ++ rest -> frun ([], QText) (W whole) ([], QText) -> full_tag tag ->
    block_name (W tag) name -> err_at e (span_of tag) (s2b "unclosed `" ++ name ++ s2b "` block") -> (forall body after, rest = body ++ after -> ~ frun ([], QText) (W (whole ++ tag ++ body)) ([], QText)) -> failure all fin e.

Lemma opened_item done bl st T bl' st' : frun ([], QText) (W done) (st, QText) -> absb bl st -> opened done bl -> item T st st' -> absb bl' st' ->
  (bl' = [] \/ (bl = [] /\ full_tag T /\ exists name, block_name (W T) name /\ bottom bl' = Some (span_of T, name)) \/ (bl <> [] /\ bottom bl' = bottom bl)) -> opened (done ++ T) bl'.
Proof.
  intros R A O (NT & RT & IT) A' [->|[(-> & Ft & nm & Hnm & Hb)|(Nb & Hb)]]; [left; auto| |].
  - apply absb_nil in A. rewrite (proj1 A eq_refl) in *. right. exists done, T, []. split; [now rewrite app_nil_r|]. split; auto. split; auto. split; [eauto|].
    intros body after E. symmetry in E. apply app_eq_nil in E as [-> ->]. rewrite app_nil_r, words_app. intros K. apply frun_app in K as (c & K1 & K2).
    rewrite (frun_fun _ _ _ _ K1 R) in K2. pose proof (frun_fun _ _ _ _ K2 RT) as E. injection E as <-. apply absb_nil in A'. rewrite (proj2 A' eq_refl) in Hb. discriminate.
  - destruct O as [->|(whole & tag & rest & -> & Rw & Ft & (nm & Hnm & Hb0) & No)]; [contradiction|]. destruct bl' as [|b' bl'']; [left; auto|]. right.
    exists whole, tag, (rest ++ T). split; [now rewrite <- !app_assoc|]. split; auto. split; auto. split; [exists nm; split; [exact Hnm|congruence]|].
    intros body after E K.
    destruct (app_eq_app _ _ _ _ E) as (l & [[Eb El]|[Eb El]]).
    + exact (No body l Eb K).
    + subst body. destruct l as [|x l]; [apply (No rest []); [now rewrite app_nil_r|now rewrite app_nil_r in K]|].
      assert (K' : frun ([], QText) (W (whole ++ tag ++ rest) ++ W (x :: l)) ([], QText)) by (rewrite <- words_app, <- !app_assoc; exact K).
      apply frun_app in K' as (c & K1 & K2). rewrite (frun_fun _ _ _ _ K1 R) in K2. destruct after as [|y after].
      * rewrite app_nil_r in El. subst T. pose proof (frun_fun _ _ _ _ K2 RT) as E'. injection E' as <-. apply absb_nil in A'. pose proof (proj2 A' eq_refl) as E0. discriminate E0.
      * apply (IT (x :: l) (y :: after) ([], QText)); auto; discriminate.
Qed.

Lemma loop_ok fuel : forall done all p ts fin bl sc st, all = done ++ ts -> ok p ts fin -> top source ts -> frun ([], QText) (W done) (st, QText) -> absb bl st -> opened done bl ->
  match parse_template_loop sr source fuel p bl sc with
  | Ok (bl', _) => fin = None /\ exists st', frun ([], QText) (W all) (st', QText) /\ absb bl' st' /\ opened all bl'
  | Err e => failure all fin e
  | _ => True
  end.
Proof.
  induction fuel as [|fuel IH]; intros done all p ts fin bl sc st -> H Ht R A O; [exact I|]. cbn [parse_template_loop]. destruct ts as [|[t b] ts].
  - rewrite app_nil_r. destruct fin as [e|].
    + rewrite (ok_next_err _ Hsx _ _ Hsrc _ _ H). cbn [bind]. eapply fl_stop; eauto.
    + destruct (ok_next_nil _ Hsx _ _ Hsrc _ H) as (p' & -> & H'). cbn [bind]. split; auto. exists st. auto.
  - pose proof (ok_ordered _ _ _ _ _ _ H) as Ho. destruct (ok_next _ Hsx _ _ Hsrc _ _ _ _ H) as (p' & -> & H'). cbn [bind].
    pose proof (stmt_ok t b p' ts fin bl sc st H' Ht Ho A) as K. destruct (parse_stmt sr source t b p' bl sc) as [[[[so bl1] sc1] p1]|e| |]; try exact I; cbn [bind].
    2:{ eapply fl_wrong; eauto. }
    destruct K as (T & rest & st' & E & H1 & Ht1 & It & A1 & Kp). rewrite E.
    assert (Go : forall sc2, match parse_template_loop sr source fuel p1 bl1 sc2 with
      | Ok (bl', _) => fin = None /\ exists st', frun ([], QText) (W (done ++ T ++ rest)) (st', QText) /\ absb bl' st' /\ opened (done ++ T ++ rest) bl'
      | Err e => failure (done ++ T ++ rest) fin e | _ => True end).
    { intros sc2. apply (IH (done ++ T) (done ++ T ++ rest) p1 rest fin bl1 sc2 st'); auto; [now rewrite <- app_assoc| |eapply opened_item; eauto].
      rewrite words_app. apply frun_app. exists (st, QText). split; auto. apply It. }
    destruct so as [so|]; [|apply Go]. destruct (push_stmt so sc1) as [sc2|e| |] eqn:Ep; try exact I; cbn [bind]; [apply Go|]. destruct sc1; discriminate.
Qed.

Lemma template_blame ts fin e : ok parser_new ts fin -> top source ts -> parse_template sr source = Err e -> failure ts fin e.
Proof.
  intros H Ht. unfold parse_template. pose proof (loop_ok (pfuel source) [] ts parser_new ts fin [] [[]] [] eq_refl H Ht eq_refl ab_nil (or_introl eq_refl)) as K.
  destruct (parse_template_loop sr source (pfuel source) parser_new [] [[]]) as [[bl sc]|e'| |]; try discriminate; cbn [bind].
  2:{ intros E. injection E as <-. exact K. }
  destruct K as (-> & st & R & A & O). destruct (rev bl) as [|b0 r0] eqn:Er; [destruct sc as [|? [|? ?]]; discriminate|].
  assert (Hb : bottom bl = Some (bmark b0)) by (unfold bottom; now rewrite Er).
  destruct O as [->|(whole & tag & rest & Ea & Rw & Ft & (nm & Hnm & Hb0) & No)]; [discriminate|]. rewrite Hb in Hb0. injection Hb0 as Hb0 Hb1.
  intros E. eapply fl_block with (st := st) (name := nm); eauto. rewrite <- Hb0, <- Hb1. destruct b0; cbn [bspan bname]; (eapply err_syntax_at; exact E).
Qed.
End TagBlame.
