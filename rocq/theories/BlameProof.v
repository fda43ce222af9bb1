(** The errors of the compiler are where they should be. *)
From Verif Require Import Base Utf8 Ext Errors Syntax AhoCorasick SearchSpec SyntaxSpec Value Ast Lexer LexSpec Wp TrimProof
  LexProof GrammarSpec LayoutSpec BlameSpec Parser LitProof TokStream ParseProof ParseSound ParseMain CompileErr Words Automaton LitBlame Blame TagBlame LexStop.

Section BlameProof.
Context `{X : Ext}.
Variable sx : syntax.
Hypothesis Hsx : user_syntax sx.
Variable sr : searcher.
Hypothesis Hsr : @searcher_new error sx = Ok sr.
Variable source : str.
Hypothesis Hsrc : valid_utf8 source.
Hypothesis Hclosers : trims_ok sx source.

Notation W := (words source).
Notation blame := (blame sx source).

Lemma tiling_part full at_ md ts : tiling sx source full at_ md ts -> tiling sx source false at_ md ts.
Proof.
  induction 1; [apply ti_end; discriminate|eapply ti_raw; eauto|apply ti_open; auto|apply ti_close; auto|apply ti_tok; auto].
Qed.
Lemma possible_nil : possible [].
Proof. exists [], []. apply sentence_iff. constructor. Qed.
Lemma last_minus part : (exists before s, part = before ++ [(TMinus, s)]) <-> (exists before x, W part = before ++ [(TMinus, x)]).
Proof.
  split.
  - intros (before & s & ->). rewrite words_app. exists (W before), (txt source s). reflexivity.
  - intros (before & x & E). destruct part as [|[t s] part _] using rev_ind; [destruct before; discriminate|]. rewrite words_app in E. apply app_inj_tail in E as [_ E]. injection E as -> _. eauto.
Qed.
Lemma unfit part s t tsp : srun QText (W part) s -> ~ fits s (sense source (t, tsp)) -> denotes_nothing source part t tsp.
Proof.
  intros R N. pose proof (minus_run _ _ R) as M. rewrite <- last_minus in M. unfold fits in N. cbn in N. destruct t; cbn; try (now destruct N).
  - intros v Hv. apply N. eauto.
  - intros neg v Hn Hv. assert (E : neg = signed s) by (destruct neg, (signed s); try reflexivity; exfalso; intuition discriminate). subst neg. apply N. exists v. exact Hv.
  - intros o Ho. apply N. eauto.
Qed.

(** ** Messages *)
Lemma step_possible part s w s1 o : tag_words (W part) -> srun QText (W part) s -> step s w s1 o -> possible (W part ++ [w]).
Proof.
  intros T R S. destruct (q_text s1) as [->|N]; [eapply full_possible; eauto|].
  destruct (tag_inv _ _ T R) as [Ns I]. destruct (inv_step _ _ _ _ _ I S) as [[E _]|(_ & -> & _)]; [contradiction|].
  eapply part_possible; [|apply srun_app; exists s; split; [exact R|apply srun_one; exact S]].
  destruct T as (t & inner & -> & Ho & F). exists t, (inner ++ [w]). split; [reflexivity|]. split; auto. apply Forall_app. split; auto. constructor; [|constructor].
  apply (step_kind _ _ _ _ S Ns). exact N.
Qed.
Lemma base_words_plain ws : w_base ws -> Forall plain ws.
Proof.
  assert (Hm : forall ms, w_members ms -> Forall plain ms).
  { induction 1 as [|o a ms Ho Ha Hm IH]; constructor; [|constructor; auto]; unfold plain; [destruct Ho as [-> | ->]; reflexivity|destruct Ha as [->|[-> _]]; reflexivity]. }
  destruct 1; repeat constructor. now apply Hm.
Qed.
Lemma wants_wanted part s what : tag_words (W part) -> srun QText (W part) s -> wants s what -> wanted (W part) what.
Proof.
  intros T R H. destruct H as [t x s1 o S|He|Ha Hi].
  - eapply wa_token. eapply step_possible; eauto.
  - apply wa_expression. intros src ts e Hg. apply to_base in Hg. destruct (He _ Hg) as (s1 & N & R1). pose proof (base_words_plain _ Hg) as F.
    eapply part_possible; [|apply srun_app; eauto]. destruct T as (t & inner & -> & Ho & F0). exists t, (inner ++ words src ts). split; [reflexivity|]. split; auto. apply Forall_app. auto.
  - apply wa_access.
    + intros x. destruct (Ha x) as (s1 & _ & S). eapply step_possible; eauto.
    + intros x v Hx. destruct (Hi x v Hx) as (s1 & _ & S). eapply step_possible; eauto.
Qed.
Lemma grumble_complaint part s t why : tag_words (W part) -> srun QText (W part) s -> grumble source s t why -> complaint source (W part) (fst t) (snd t) why.
Proof.
  intros T R H. destruct H as [what Hw Ne|k s1 Et S|Et|v Et Hn Hv].
  - apply co_expected; auto. eapply wants_wanted; eauto.
  - apply co_keyword; auto. eapply step_possible; eauto.
  - now apply co_unexpected.
  - eapply co_index; eauto.
Qed.

Lemma failure_blame raw fin e : tiling sx source (match fin with None => true | Some _ => false end) 0 (MText false) raw ->
  (forall e', fin = Some e' -> stops_at sx source raw e') -> failure source (nonspace raw) fin e -> exists sp why, err_at source e sp why /\ blame sp why.
Proof.
  intros Ht Hf F. pose proof (tiling_part _ _ _ _ Ht) as Hp. destruct F as [st R Ef|whole rest st Ea R Wr|st whole tag rest name Ef R Ea Rw Ft Hnm He No].
  - destruct (Hf e Ef) as (sp & why & S & He). exists sp, why. split; auto. apply (bl_stop sx source raw (nonspace raw) []); auto; [now rewrite app_nil_r|eapply frun_viable; eauto|exact possible_nil].
  - destruct Wr as [part rest' s -> T Rp Hh|part w rest' s b -> T Ft Rp S Ee He].
    + assert (Tw : tag_words (W part)) by now apply tag_start_words. pose proof (part_possible _ _ Tw Rp) as Pp. pose proof (frun_viable _ _ R) as V.
      destruct rest' as [|[t tsp] rest'].
      * cbn [halt] in Hh. rewrite app_nil_r in Ea. destruct fin as [e'|].
        -- subst e'. destruct (Hf e eq_refl) as (sp & why & S & He). exists sp, why. split; auto. eapply bl_stop; eauto.
        -- destruct Hh as (what & He & Hw). eexists _, _. split; [exact He|]. eapply bl_eof; eauto; [eapply not_final; eauto|]. destruct Hw as [Hw|Hw]; [left; eapply wants_wanted; eauto|now right].
      * cbn [halt] in Hh. destruct Hh as [Ns [(why & He & Hg)|(lit & sp & why & He & Hm & Nf & Hl)]].
        -- exists tsp, why. split; [exact He|]. eapply bl_token; eauto; [rewrite words_app; eapply not_possible; eauto|]. exact (grumble_complaint _ _ (t, tsp) _ Tw Rp Hg).
        -- exists sp, why. split; [exact He|]. apply (bl_literal sx source raw whole part lit t tsp sp rest' why); auto.
           ++ rewrite words_app. eapply not_possible; eauto.
           ++ eapply unfit; eauto.
           ++ destruct Hl as [->|(before & [sg ssp] & -> & Hsg & ->)]; auto. right. exists before, sg, ssp. auto.
    + eexists _, _. split; [exact He|]. apply (bl_tag sx source raw whole (part ++ [w]) rest' (name_eff b)); auto.
      * now rewrite <- app_assoc.
      * eapply frun_viable; eauto.
      * rewrite words_app. eapply full_possible; eauto. now apply tag_start_words.
      * rewrite !words_app. eapply not_viable; eauto.
      * apply tag_name. rewrite words_app. assert (Tw : tag_words (W part)) by now apply tag_start_words. destruct (tag_inv _ _ Tw Rp) as [N I0].
        destruct (inv_step _ _ _ _ _ I0 S) as [[_ D]|(N' & _)]; [exact D|contradiction].
  - subst fin. eexists _, _. split; [exact He|]. eapply bl_block; eauto.
    + rewrite <- Ea. eapply frun_viable; eauto.
    + now apply frun_sentence.
    + intros body after Er Hs. apply (No body after Er). now apply sentence_run.
Qed.

Theorem parse_blame e : parse_template sr source = Err e -> exists sp why, err_at source e sp why /\ blame sp why.
Proof.
  intros E. destruct (str_eq_dec source []) as [Es|Hne]; [rewrite (parse_empty sr source Es) in E; discriminate|].
  destruct (lexes_start sx Hsx sr Hsr source Hsrc Hclosers) as (raw & fin & Hl & Ht).
  destruct (stream_ok sx Hsx sr source Hsrc raw fin Hl Ht) as [Hok Htop].
  apply (failure_blame raw fin); auto.
  - intros e' ->. apply (lexes_err sx Hsx sr (searcher_spec sx Hsx sr Hsr) source Hsrc Hclosers raw e' Hl).
  - eapply (template_blame sx Hsx sr source Hsrc Hne); eauto.
Qed.
End BlameProof.
