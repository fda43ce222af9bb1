(** Writing templates down: every tree that satisfies TreeSpec.v has a source. *)
From Verif Require Import Base Utf8 Ext Errors Syntax SearchSpec SyntaxSpec Value Ast Lexer LexSpec TrimProof LexProof Wp GrammarSpec LayoutSpec
  DecimalSpec DecimalProof LiteralSpec Meaning LayoutProof Props2 Wrap Literal Trailing Concat Props10 TreeSpec TreeLex.

Section TreePrint.
Context `{X : Ext}.
Hypothesis HX : ext_ascii X.
Notation sx := default_syntax.

(** ** Words of a tag *)
Inductive wordy : bool -> list (token * str) -> Prop :=
| wo_nil p : wordy p []
| wo_cons p t w ks : valid_utf8 w -> (forall r, nodel (w ++ x20 :: r)) -> t <> TWhitespace -> lexeme p t w ->
    wordy (after_tok p t) ks -> wordy p ((t, w) :: ks).
Lemma wordy_app p a b : wordy p a -> wordy (path_after p a) b -> wordy p (a ++ b).
Proof. induction 1; intros Hb; cbn [app path_after] in *; [exact Hb|]. constructor; auto. Qed.
Definition spell (ks : list (token * str)) : str := flat_map (fun k => snd k ++ [x20]) ks.
Lemma lexeme_start p t w : valid_utf8 w -> t <> TWhitespace -> lexeme p t w -> exists c cs, chars w = c :: cs /\ blank c = false.
Proof.
  intros V Hn H.
  assert (D : forall c, ascii_digit c = true -> blank c = false).
  { intros c Hc. unfold ascii_digit, blank in *. rewrite andb_true_iff, !N.leb_le in Hc. rewrite orb_false_iff, !N.eqb_neq. lia. }
  destruct t; try contradiction H; try contradiction (Hn eq_refl); try (rewrite H; vm_compute; eauto; fail).
  all: match type of H with
       | lexeme _ TIndex _ => destruct H as (_ & H & F)
       | lexeme _ TNumber _ => destruct H as (_ & c & cs & E & Hc & _); eauto
       | lexeme _ TString _ => destruct H as (body & E & _); rewrite E; eauto
       | _ => destruct H as (_ & c & cs & E & (_ & _ & Hb & _) & _); eauto
       end.
  destruct V as (ds & Hd & ->). rewrite chars_flat_map in * by exact Hd. destruct ds as [|c ds]; [now destruct H|]. inversion F; subst. eauto.
Qed.
Lemma lexeme_nonempty p t w : valid_utf8 w -> t <> TWhitespace -> lexeme p t w -> w <> [].
Proof. intros V Hn H ->. destruct (lexeme_start p t [] V Hn H) as (c & cs & E & _). discriminate E. Qed.
Lemma space_stops t r : t <> TWhitespace -> maximal t (x20 :: r).
Proof.
  intros Hn. assert (W : word_char 32 = false) by (unfold word_char; destruct HX as (_ & _ & H); rewrite H by reflexivity; reflexivity).
  destruct t; cbn [maximal]; try exact I; try contradiction (Hn eq_refl); apply stops_low; try reflexivity; exact W.
Qed.
Lemma lexes_space hy e p r ks : stops blank r -> lexes hy (MTag e p) r ks -> lexes false (MTag e p) (x20 :: r) ks.
Proof.
  intros Hs H. apply (lexes_tok hy e p TWhitespace [x20] r ks); auto; try discriminate.
  - now apply asciib_valid.
  - apply nodel_first. cbn. intuition discriminate.
  - split; [discriminate|]. vm_compute. auto.
Qed.
Lemma lexes_words hy e p ks r ks' : wordy p ks -> lexes hy (MTag e (path_after p ks)) r ks' -> stops blank r ->
  exists hy', lexes hy' (MTag e p) (spell ks ++ r) (ks ++ ks') /\ stops blank (spell ks ++ r).
Proof.
  intros Hw. induction Hw as [p|p t w ks V Hd Hn Hl Hw IH]; intros H Hb; [exists hy; auto|]. cbn [path_after] in H. destruct (IH H Hb) as (hy' & H' & Hb').
  exists false. cbn [spell flat_map snd]. change (flat_map _ ks) with (spell ks). rewrite <- !app_assoc. cbn [app]. split.
  - pose proof (lexes_tok false e p t w (x20 :: spell ks ++ r) (ks ++ ks') (lexeme_nonempty _ _ _ V Hn Hl) V (Hd _) Hl (space_stops _ _ Hn) (lexes_space _ _ _ _ _ Hb' H')) as L.
    destruct t; try exact L. now destruct Hn.
  - destruct (lexeme_start _ _ _ V Hn Hl) as (c & cs & E & Hc). unfold stops. rewrite chars_app; auto; [rewrite E; exact Hc|].
    exact (valid_app [x20] _ (asciib_valid [x20] eq_refl) (proj1 H')).
Qed.

(** ** Statements *)

(** What follows a statement: nothing, or a tag. *)
Definition goodr (r : str) : Prop := r = [] \/ exists r', r = x7b :: r'.
Lemma good_hyphen r : goodr r -> hd_error r <> Some x2d.
Proof. intros [->|(r' & ->)]; discriminate. Qed.
Lemma good_open k r : opening k = true -> goodr (pattern k ++ r).
Proof. intros H. right. destruct k; try discriminate H; eexists; reflexivity. Qed.
Definition writes_as (s : str) (ks : list (token * str)) : Prop :=
  forall hy r ks', goodr r -> lexes hy (MText false) r ks' -> exists hy', goodr (s ++ r) /\ lexes hy' (MText false) (s ++ r) (ks ++ ks').
Lemma writes_app s1 k1 s2 k2 : writes_as s1 k1 -> writes_as s2 k2 -> writes_as (s1 ++ s2) (k1 ++ k2).
Proof. intros H1 H2 hy r ks' G H. destruct (H2 hy r ks' G H) as (hy' & G' & H'). rewrite <- !app_assoc. eauto. Qed.
Lemma writes_nil : writes_as [] [].
Proof. intros hy r ks' G H. eauto. Qed.

(** A tag. *)
Definition tag_text (o c : kind) (ks : list (token * str)) : str := pattern o ++ x20 :: spell ks ++ pattern c.
Lemma writes_tag o c ks : (o = BeginExprK /\ c = EndExprK) \/ (o = BeginBlockK /\ c = EndBlockK) -> wordy false ks ->
  writes_as (tag_text o c ks) ((tag_token o, []) :: ks ++ [(tag_token c, [])]).
Proof.
  intros Hoc Hw hy r ks' G H. exists (hyphenated o). unfold tag_text. rewrite <- app_assoc. cbn [app]. rewrite <- app_assoc.
  assert (Ho : opening o = true) by (destruct Hoc as [(-> & ->)|(-> & ->)]; reflexivity). split; [now apply good_open|].
  assert (C : lexes false (MTag (tag_token c) (path_after false ks)) (pattern c ++ r) ((tag_token c, []) :: ks')).
  { apply (lexes_close hy c); [destruct Hoc as [(-> & ->)|(-> & ->)]; reflexivity|left; eauto|]. destruct Hoc as [(-> & ->)|(-> & ->)]; exact H. }
  destruct (lexes_words _ _ _ _ _ _ Hw C) as (hy' & L & Hb).
  { destruct Hoc as [(-> & ->)|(-> & ->)]; (apply stops_low; reflexivity). }
  replace ((ks ++ [(tag_token c, [])]) ++ ks') with (ks ++ (tag_token c, []) :: ks') by (now rewrite <- app_assoc).
  apply (lexes_open false o false); [exact Ho|discriminate|].
  replace (after_open (tag_token o)) with (MTag (tag_token c) false) by (destruct Hoc as [(-> & ->)|(-> & ->)]; reflexivity).
  eapply lexes_space; eauto.
Qed.

(** A comment. *)
Definition comment (o c : bool) : str :=
  pattern (if o then BeginCommentTrimK else BeginCommentK) ++ x20 :: pattern (if c then EndCommentTrimK else EndCommentK).
Definition comment_tokens : list (token * str) := [(TBeginComment, []); (TRaw, [x20]); (TEndComment, [])].
Lemma lexes_comment (o c : bool) b hy r ks : lexes hy (MText c) r ks -> lexes o (MText b) (comment o c ++ r) (comment_tokens ++ ks).
Proof.
  intros H. unfold comment. rewrite <- app_assoc. cbn [app comment_tokens].
  assert (C : lexes false MComment (pattern (if c then EndCommentTrimK else EndCommentK) ++ r) ((TEndComment, []) :: ks)).
  { replace TEndComment with (tag_token (if c then EndCommentTrimK else EndCommentK)) by (now destruct c).
    apply (lexes_close hy); [now destruct c|right; split; [reflexivity|now destruct c]|]. destruct c; exact H. }
  assert (M : lexes false MComment (x20 :: pattern (if c then EndCommentTrimK else EndCommentK) ++ r) ((TRaw, [x20]) :: (TEndComment, []) :: ks)).
  { refine (lexes_raw false MComment [] [x20] [] _ _ _ _ _ _ _ _ _ _ _ C); try reflexivity; try discriminate; try (now apply asciib_valid).
    - intros [|i] Hi; [|cbn in Hi; lia]. cbn [skipn app]. apply nodel_first. cbn. intuition discriminate.
    - eauto. }
  destruct o.
  - apply (lexes_open false BeginCommentTrimK); [reflexivity|discriminate|exact M].
  - apply (lexes_open false BeginCommentK); [reflexivity|discriminate|exact M].
Qed.

(** Text. *)
Definition clean (w : str) : Prop := forall k p i, In (k, p) sx -> ~ occurs_at p w i.
Lemma clean_tail w i : clean w -> nodel (skipn i w).
Proof.
  intros H k p t Hi E. destruct (Nat.le_gt_cases i (length w)) as [L|L].
  - apply (H k p i Hi). split; [exact L|eauto].
  - rewrite skipn_all2 in E by lia. apply (H k p (length w) Hi). split; [lia|]. rewrite skipn_all. eauto.
Qed.
Lemma nodel_then (u r : str) : u <> [] -> nodel u -> (forall u', u <> u' ++ [x7b]) -> nodel (u ++ x7b :: x23 :: r).
Proof.
  intros Hu Hd Hl k p t Hi E. pose proof (pattern_only k p Hi) as ->.
  destruct u as [|a [|b [|c u]]]; [now destruct Hu|..].
  - destruct k; cbn in E; try discriminate E; injection E as -> E; now destruct (Hl []).
  - cbn [app] in E. destruct k; cbn in E; try discriminate E; injection E; intros; subst; try discriminate; eapply (Hd _ _ []); try exact Hi; reflexivity.
  - cbn [app] in E. eapply (Hd k (pattern k) _ Hi). instantiate (1 := skipn (length (pattern k)) (a :: b :: c :: u)).
    destruct k; cbn in E |- *; injection E; intros; subst; reflexivity.
Qed.
Lemma clean_then w r i : clean w -> (forall w', w <> w' ++ [x7b]) -> i < length w -> nodel (skipn i (w ++ x7b :: x23 :: r)).
Proof.
  intros Hc Hl Hi. rewrite skipn_app. replace (i - length w) with 0 by lia. cbn [skipn]. apply nodel_then.
  - intros E. apply (f_equal (@length _)) in E. rewrite skipn_length in E. cbn in E. lia.
  - now apply clean_tail.
  - intros u' E. apply (Hl (firstn i w ++ u')). rewrite <- app_assoc, <- E. symmetry. apply firstn_skipn.
Qed.
Lemma clean_space w : clean w -> clean (w ++ [x20]).
Proof.
  intros H k p i Hi (L & t & E). rewrite skipn_app in E. destruct (Nat.lt_ge_cases i (length w)) as [G|G].
  - replace (i - length w) with 0 in E by lia. cbn [skipn] in E.
    assert (U : exists t', skipn i w = p ++ t'); [|destruct U as (t' & U); apply (H k p i Hi); split; [lia|eauto]].
    pose proof (pattern_only k p Hi) as ->. destruct (skipn i w) as [|a [|b [|c u]]] eqn:Es.
    + apply (f_equal (@length _)) in Es. rewrite skipn_length in Es. cbn in Es. lia.
    + destruct k; cbn in E; discriminate E.
    + destruct k; cbn in E; try discriminate E; injection E; intros; subst; try discriminate; exists []; reflexivity.
    + exists (skipn (length (pattern k)) (a :: b :: c :: u)). destruct k; cbn in E |- *; injection E; intros; subst; reflexivity.
  - rewrite skipn_all2 in E by lia. cbn [app] in E. pose proof (pattern_only k p Hi) as ->.
    assert (Ei : i - length w = 0 \/ 1 <= i - length w) by lia. destruct Ei as [Ei|Ei].
    + rewrite Ei in E. destruct k; discriminate E.
    + rewrite skipn_all2 in E by (cbn; lia). destruct k; discriminate E.
Qed.
Definition text_text (s : str) : str :=
  match s with
  | [] => comment false true ++ [x20] ++ comment true false
  | _ => match rev s with
         | x7b :: _ => comment false false ++ (s ++ [x20]) ++ comment true false
         | _ => comment false false ++ s ++ comment false false
         end
  end.
Definition text_tokens (s : str) : list (token * str) := comment_tokens ++ (TRaw, s) :: comment_tokens.
Lemma white_sp : white [x20].
Proof. exists [32%N]. split; [constructor; [split; [unfold scalar; lia|reflexivity]|constructor]|reflexivity]. Qed.
Lemma not_ends_nil : ~ ends_white [].
Proof. intros (c & t & Hc & _ & E). symmetry in E. apply app_eq_nil in E as (_ & E). now apply encode_nonempty in E. Qed.
Lemma not_starts_nil : ~ starts_white [].
Proof. intros (c & t & Hc & _ & E). symmetry in E. apply app_eq_nil in E as (E & _). now apply encode_nonempty in E. Qed.
Lemma not_ends_brace s : valid_utf8 s -> ~ ends_white (s ++ [x7b]).
Proof.
  intros V H. apply ends_white_app in H; auto; [|discriminate|now apply asciib_valid]. destruct H as (c & t & Hc & W & E).
  assert (Et : t = []). { destruct t; [reflexivity|]. injection E as _ E. symmetry in E. apply app_eq_nil in E as (_ & E). now apply encode_nonempty in E. }
  subst t. cbn [app] in E. assert (E' : encode 123 ++ [] = encode c ++ []) by (rewrite !app_nil_r; exact E). apply encode_app_inj in E' as (<- & _); auto; [discriminate W|unfold scalar; lia].
Qed.
Lemma comment_brace o c r : exists t, comment o c ++ r = x7b :: x23 :: t.
Proof. destruct o; eexists; reflexivity. Qed.
Lemma comment_pattern o c r : exists k t, comment o c ++ r = pattern k ++ t.
Proof. unfold comment. rewrite <- app_assoc. eauto. Qed.
Lemma comment_good o c r : goodr (comment o c ++ r).
Proof. right. destruct (comment_brace o c r) as (t & ->). eauto. Qed.
Lemma rev_ends_brace {A} (s : list A) b l : rev s = b :: l -> s = rev l ++ [b].
Proof. intros H. rewrite <- (rev_involutive s), H. reflexivity. Qed.
Lemma writes_text s : a_text sx s -> writes_as (text_text s) (text_tokens s).
Proof.
  intros (V & Hc) hy r ks' G H. unfold text_tokens. exists false.
  replace ((comment_tokens ++ (TRaw, s) :: comment_tokens) ++ ks') with (comment_tokens ++ (TRaw, s) :: comment_tokens ++ ks') by (now rewrite <- !app_assoc).
  destruct s as [|b0 s0].
  - unfold text_text. rewrite <- !app_assoc. split; [apply comment_good|]. apply (lexes_comment false true false false).
    pose proof (lexes_comment true false false hy r ks' H) as C.
    refine (lexes_raw true (MText true) [] [] [x20] _ _ _ _ _ _ _ _ _ _ _ C); try discriminate; auto using valid_nil; try (now apply asciib_valid).
    + intros [|i] Hi; [|cbn in Hi; lia]. cbn [skipn app]. apply nodel_first. cbn. intuition discriminate.
    + apply comment_pattern.
    + split; [apply white_sp|apply not_ends_nil].
    + split; [apply white_nil|apply not_starts_nil].
  - set (s := b0 :: s0) in *. assert (Hne : s <> []) by discriminate.
    assert (T : (exists s', s = s' ++ [x7b]) \/ ((forall s', s <> s' ++ [x7b]) /\ text_text s = comment false false ++ s ++ comment false false)).
    { unfold text_text. change s with (b0 :: s0) at 3. cbv iota. destruct (rev s) as [|b l] eqn:Er.
      - right. split; [|reflexivity]. intros s' E. rewrite E, rev_app_distr in Er. discriminate Er.
      - destruct (Byte.eqb b x7b) eqn:Eb.
        + left. apply Byte.byte_dec_bl in Eb as ->. exists (rev l). now apply rev_ends_brace.
        + right. split; [|destruct b; try reflexivity; discriminate Eb]. intros s' E. rewrite E, rev_app_distr in Er. cbn in Er. injection Er as <- _. discriminate Eb. }
    destruct T as [(s' & Es)|(Hl & ->)].
    + assert (Tx : text_text s = comment false false ++ (s ++ [x20]) ++ comment true false).
      { unfold text_text. change s with (b0 :: s0) at 1. cbv iota. rewrite Es, rev_app_distr. reflexivity. }
      rewrite Tx, <- !app_assoc. split; [apply comment_good|]. apply (lexes_comment false false false false).
      pose proof (lexes_comment true false false hy r ks' H) as C.
      rewrite app_assoc. refine (lexes_raw true (MText false) [] s [x20] _ _ _ _ _ _ _ _ _ _ _ C); try discriminate; auto using valid_nil; try (now apply asciib_valid).
      * intros i Hi. cbn [app] in *. destruct (comment_brace true false r) as (t & ->). apply clean_then; auto.
        -- now apply clean_space.
        -- intros w' E. apply app_inj_tail in E as (_ & E). discriminate E.
      * apply comment_pattern.
      * split; [apply white_sp|]. cbn [app]. rewrite Es. apply not_ends_brace. apply (valid_app_inv_r s' [x7b]); [rewrite <- Es; exact V|now apply asciib_valid].
    + rewrite <- !app_assoc. split; [apply comment_good|]. apply (lexes_comment false false false false).
      pose proof (lexes_comment false false false hy r ks' H) as C.
      replace (s ++ comment false false ++ r) with (([] ++ s ++ []) ++ comment false false ++ r) by (now rewrite app_nil_r).
      refine (lexes_raw false (MText false) [] s [] _ _ _ _ _ _ _ _ _ _ _ C); try discriminate; auto using valid_nil.
      * intros i Hi. cbn [app] in *. rewrite app_nil_r in *. destruct (comment_brace false false r) as (t & ->). apply clean_then; auto.
      * apply comment_pattern.
Qed.
End TreePrint.
