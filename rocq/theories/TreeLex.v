(** Writing templates down: tokens. *)
From Verif Require Import Base Utf8 Ext Errors Syntax SearchSpec SyntaxSpec Value Ast Lexer LexSpec TrimProof LexProof Wp GrammarSpec LayoutSpec
  LayoutProof Props2 Wrap Literal Concat TreeSpec.

Section TreeLex.
Context `{X : Ext}.
Notation sx := default_syntax.

(** [lexes hy md s ks]: the text [s] is tokens with the senses [ks]; [hy]: the first one
    is a hyphenated opening tag. *)
Definition lexes (hy : bool) (md : mode) (s : str) (ks : list (token * str)) : Prop :=
  valid_utf8 s /\ exists ts, tiling sx s true 0 md ts /\ map (sense s) (nonspace ts) = ks /\ (next_trims sx s ts <-> hy = true).

(** The same tokens after [w]. *)
Lemma lexes_after hy md s ks w : lexes hy md s ks ->
  exists ts, tiling sx (w ++ s) true (length w) md ts /\ map (sense (w ++ s)) (nonspace ts) = ks /\ (next_trims sx (w ++ s) ts <-> hy = true).
Proof.
  intros (V & ts & Ht & Hs & Hn). exists (map (shift w) ts). split; [|split].
  - pose proof (tiling_r sx w s V true 0 md ts Ht) as T. now rewrite Nat.add_0_r in T.
  - rewrite nonspace_shift. rewrite <- Hs. symmetry. apply same_r.
  - rewrite <- Hn. apply trims_r.
Qed.

Lemma lexes_end md : lexes false md [] [].
Proof. split; [apply valid_nil|]. exists []. split; [now constructor|]. split; [reflexivity|]. cbn. split; [tauto|discriminate]. Qed.

Definition pattern (k : kind) : str :=
  match k with
  | BeginExprK => s2b "{{" | EndExprK => s2b "}}" | BeginBlockK => s2b "{%" | EndBlockK => s2b "%}" | BeginCommentK => s2b "{#" | EndCommentK => s2b "#}"
  | BeginExprTrimK => s2b "{{-" | EndExprTrimK => s2b "-}}" | BeginBlockTrimK => s2b "{%-" | EndBlockTrimK => s2b "-%}" | BeginCommentTrimK => s2b "{#-" | EndCommentTrimK => s2b "-#}"
  end.
Lemma pattern_in k : In (k, pattern k) sx.
Proof. destruct k; vm_compute; tauto. Qed.
Lemma pattern_only k p : In (k, p) sx -> p = pattern k.
Proof. intros H. vm_compute in H. repeat (destruct H as [H|H]; [injection H as <- <-; reflexivity|]). destruct H. Qed.
Lemma pattern_valid k : valid_utf8 (pattern k).
Proof. apply asciib_valid. destruct k; reflexivity. Qed.
(** A delimiter followed by no hyphen. *)
Lemma pattern_tag k r : (opening k = true -> hd_error r <> Some x2d) -> tag_at sx (pattern k ++ r) k 0 (length (pattern k)).
Proof.
  intros Hr. pose proof (pattern_in k) as Hi. apply in_split in Hi as (bf & af & E).
  apply (best_here (pattern k) r k [] bf af E).
  - intros k' p' Hin Ep. assert (Hin' : In (k', p') sx) by (rewrite E; apply in_or_app; now left).
    apply pattern_only in Hin' as ->. assert (k' = k) as -> by (destruct k', k; try reflexivity; vm_compute in Ep; discriminate Ep).
    assert (ND : NoDup (map fst sx)) by (vm_compute; repeat (constructor; [cbn; intuition discriminate|]); constructor).
    rewrite E, map_app in ND. cbn [map fst] in ND. apply NoDup_remove_2 in ND. apply ND. apply in_or_app. left. apply (in_map fst) in Hin. exact Hin.
  - intros k' p' t Hin Ep. apply pattern_only in Hin as ->.
    destruct k', k; vm_compute in Ep; vm_compute; try lia; try discriminate Ep; specialize (Hr eq_refl); injection Ep as Ep; subst; try (now destruct Hr); destruct r; try discriminate Ep; injection Ep as -> _; now destruct Hr.
Qed.
Lemma tag_one k k' r n : tag_at sx (pattern k ++ r) k 0 n -> tag_at sx (pattern k ++ r) k' 0 n -> k = k'.
Proof. unfold tag_at. intros H1 H2. eapply best_unique; eauto. Qed.

Lemma sense_first t w r : is_delimiter t = false -> sense (w ++ r) (t, mkspan 0 (length w)) = (t, w).
Proof. intros H. unfold sense, txt. cbn [fst snd sp_m sp_n]. rewrite H. f_equal. exact (sub_mid [] w r). Qed.
Lemma sense_delim s t sp : is_delimiter t = true -> sense s (t, sp) = (t, []).
Proof. intros H. unfold sense. cbn [fst]. now rewrite H. Qed.
Lemma delim_tag k : is_delimiter (tag_token k) = true.
Proof. now destruct k. Qed.
Lemma nonspace_keep t sp ts : t <> TWhitespace -> nonspace ((t, sp) :: ts) = (t, sp) :: nonspace ts.
Proof. intros H. destruct t; try reflexivity. now destruct H. Qed.
Lemma tag_not_space k : tag_token k <> TWhitespace.
Proof. now destruct k. Qed.

Lemma lexes_open hy k b r ks : opening k = true -> hd_error r <> Some x2d -> lexes hy (after_open (tag_token k)) r ks ->
  lexes (hyphenated k) (MText b) (pattern k ++ r) ((tag_token k, []) :: ks).
Proof.
  intros Ho Hr H. pose proof (pattern_tag k r (fun _ => Hr)) as T. destruct (lexes_after _ _ _ _ (pattern k) H) as (ts & Ht & Hs & _).
  split; [apply valid_app; [apply pattern_valid|apply H]|]. eexists. split; [exact (ti_open sx _ true 0 _ k b ts Ho T Ht)|].
  rewrite nonspace_keep by apply tag_not_space. cbn [map]. rewrite sense_delim by apply delim_tag. rewrite Hs. split; [reflexivity|].
  cbn [next_trims sp_m sp_n]. split.
  - intros (k' & T' & _ & _ & Hh). now rewrite (tag_one _ _ _ _ T T').
  - intros Hh. exists k. auto.
Qed.
Lemma lexes_close hy k md r ks : opening k = false -> (exists b, md = MTag (tag_token k) b) \/ (md = MComment /\ tag_token k = TEndComment) ->
  lexes hy (MText (hyphenated k)) r ks -> lexes false md (pattern k ++ r) ((tag_token k, []) :: ks).
Proof.
  intros Ho Hm H. pose proof (pattern_tag k r ltac:(congruence)) as T. destruct (lexes_after _ _ _ _ (pattern k) H) as (ts & Ht & Hs & _).
  split; [apply valid_app; [apply pattern_valid|apply H]|]. eexists. split; [exact (ti_close sx _ true 0 _ k md ts Ho T Hm Ht)|].
  rewrite nonspace_keep by apply tag_not_space. cbn [map]. rewrite sense_delim by apply delim_tag. rewrite Hs. split; [reflexivity|].
  cbn [next_trims sp_m sp_n]. split; [|discriminate]. intros (k' & T' & _ & Ho' & _). rewrite (tag_one _ _ _ _ T T') in Ho. congruence.
Qed.

Lemma lexes_tok hy e path t w r ks : w <> [] -> valid_utf8 w -> nodel (w ++ r) -> lexeme path t w -> maximal t r ->
  lexes hy (MTag e (after_tok path t)) r ks -> lexes false (MTag e path) (w ++ r) (match t with TWhitespace => ks | _ => (t, w) :: ks end).
Proof.
  intros Hw V Hd Hl Hm H. destruct (lexes_after _ _ _ _ w H) as (ts & Ht & Hs & _). pose proof (proj1 H) as Vr.
  split; [now apply valid_app|]. exists ((t, mkspan 0 (length w)) :: ts). split; [|split].
  - apply ti_tok; auto.
    + destruct w; [now destruct Hw|]. cbn. lia.
    + rewrite app_length. lia.
    + apply boundary_0.
    + now apply boundary_app.
    + intros k p Hi (_ & t' & E). exact (Hd k p t' Hi E).
    + rewrite (sub_mid [] w r : sub (w ++ r) 0 (length w) = w). exact Hl.
    + now rewrite skip_end.
  - destruct (token_eqb t TWhitespace) eqn:Et.
    + apply token_eqb_eq in Et as ->. exact Hs.
    + rewrite nonspace_keep by (intros ->; discriminate Et). cbn [map]. rewrite sense_first, Hs by (destruct t; try reflexivity; contradiction Hl).
      destruct t; try reflexivity. discriminate Et.
  - cbn [next_trims]. split; [|discriminate]. intros (k & _ & E & _). subst t. destruct k; contradiction Hl.
Qed.

(** A raw token; [a] and [b] are trimmed. *)
Lemma lexes_raw (hy : bool) md (a w b r : str) ks : (forall e p, md <> MTag e p) -> a ++ w ++ b <> [] -> valid_utf8 a -> valid_utf8 w -> valid_utf8 b ->
  (forall i, i < length (a ++ w ++ b) -> nodel (skipn i ((a ++ w ++ b) ++ r))) ->
  (exists k t, r = pattern k ++ t) ->
  (if hy then white b /\ ~ ends_white (a ++ w) else b = []) ->
  (if match md with MText true => true | _ => false end then white a /\ ~ starts_white w else a = []) ->
  lexes hy (match md with MText _ => MText false | md => md end) r ks -> lexes false md ((a ++ w ++ b) ++ r) ((TRaw, w) :: ks).
Proof.
  intros Hmd Hne Va Vw Vb Hd (k & t & Er) Hb Ha H. destruct (lexes_after _ _ _ _ (a ++ w ++ b) H) as (ts & Ht & Hs & Hn). pose proof (proj1 H) as Vr.
  assert (Vst : valid_utf8 (a ++ w ++ b)) by (repeat apply valid_app; auto).
  set (st := a ++ w ++ b) in *. assert (Lst : length st = length a + length w + length b) by (unfold st; rewrite !app_length; lia).
  assert (Ew : sub (st ++ r) (length a) (length a + length w) = w).
  { unfold st. rewrite <- !app_assoc. apply sub_mid. }
  split; [now apply valid_app|]. exists ((TRaw, mkspan (length a) (length a + length w)) :: ts). split; [|split].
  - apply (ti_raw sx (st ++ r) true 0 md (length a) (length a + length w) (length st)); auto; try lia.
    + destruct st; [now destruct Hne|]. cbn. lia.
    + rewrite app_length. lia.
    + unfold st. rewrite <- !app_assoc. apply boundary_app. repeat (apply valid_app; auto).
    + unfold st. rewrite <- !app_assoc, app_assoc, <- app_length. apply boundary_app. repeat (apply valid_app; auto).
    + intros k' p i Hi _ Li (_ & t' & E). exact (Hd i Li k' p t' Hi E).
    + right. exists k, (pattern k). split; [apply pattern_in|]. split; [rewrite app_length; lia|]. exists t. now rewrite skip_end.
    + destruct hy.
      * left. split; [now apply Hn|]. destruct Hb as (H1 & H2). split.
        -- replace (sub (st ++ r) (length a + length w) (length st)) with b; [exact H1|]. unfold st. rewrite Lst || idtac.
           rewrite !app_assoc, <- !app_assoc, (app_assoc a w), <- app_length. rewrite <- (sub_mid (a ++ w) b r) at 1. f_equal. rewrite !app_length. lia.
        -- replace (sub (st ++ r) 0 (length a + length w)) with (a ++ w); [exact H2|]. unfold st. rewrite <- !app_assoc, (app_assoc a w), <- app_length.
           symmetry. exact (sub_mid [] (a ++ w) (b ++ r)).
      * right. split; [now rewrite Hn|]. subst b. cbn [length] in Lst. lia.
    + rewrite Ew. destruct (match md with MText true => true | _ => false end).
      * replace (sub (st ++ r) 0 (length a)) with a; [exact Ha|]. unfold st. rewrite <- !app_assoc. symmetry. exact (sub_mid [] a _).
      * subst a. reflexivity.
  - rewrite nonspace_keep by discriminate. cbn [map]. unfold sense at 1, txt. cbn [fst snd sp_m sp_n is_delimiter]. now rewrite Ew, Hs.
  - cbn [next_trims]. split; [|discriminate]. intros (k' & _ & E & _). destruct k'; discriminate E.
Qed.
End TreeLex.
