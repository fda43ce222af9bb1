(** The tree of a template satisfies TreeSpec.v. *)
From Verif Require Import Base Utf8 Ext Errors Syntax SearchSpec SyntaxSpec Value Ast Lexer LexSpec TrimProof LexProof Wp GrammarSpec LayoutSpec
  DecimalSpec LiteralSpec LitProof CompileFacts ParseComplete ParseMain Meaning LayoutProof Literal Concat TreeSpec.

Section TreeSound.
Context `{X : Ext}.
Variable sx : syntax.
Hypothesis Hu : user_syntax sx.
Variable source : str.
Hypothesis Hv : valid_utf8 source.

(** ** Tokens *)
Definition tok_ok (t : tok) : Prop :=
  match fst t with
  | TIdent => a_name (txt source (snd t))
  | TRaw => a_text sx (txt source (snd t))
  | TNumber => a_number (txt source (snd t))
  | TString => valid_utf8 (txt source (snd t))
  | _ => True
  end.
Lemma number_chars s c cs : valid_utf8 s -> chars s = c :: cs -> ascii_digit c = true -> Forall (fun c => number_char c = true) cs -> a_number s.
Proof.
  intros (ds & Hd & ->) E Hc F. rewrite chars_flat_map in E by exact Hd. subst ds.
  assert (L : forall c, number_char c = true -> (c < 128)%N).
  { intros d H. unfold number_char, ascii_digit, ascii_letter in H. rewrite !orb_true_iff, !andb_true_iff, !N.leb_le, !N.eqb_eq in H. lia. }
  assert (B : forall c, number_char c = true -> encode c = [byte_of c] /\ byte_N (byte_of c) = c).
  { intros d H. apply L in H. split; [now apply encode_ascii|]. apply byte_N_of. lia. }
  assert (M : flat_map encode cs = map byte_of cs).
  { clear Hd. induction F as [|d cs Hd F IH]; [reflexivity|]. cbn [flat_map map]. rewrite IH. now rewrite (proj1 (B d Hd)). }
  pose proof (digit_number c Hc) as Hn. exists (byte_of c), (map byte_of cs). cbn [flat_map]. rewrite M, (proj1 (B c Hn)). split; [reflexivity|].
  split; [rewrite (proj2 (B c Hn)); exact Hc|]. apply Forall_map. revert F. apply Forall_impl. intros d Hd'. now rewrite (proj2 (B d Hd')).
Qed.
Lemma text_in m n at_ at' : at_ <= m -> m <= n -> n <= at' -> at' <= length source -> boundary source m = true -> boundary source n = true ->
  (forall k p i, In (k, p) sx -> at_ <= i -> i < at' -> ~ occurs_at p source i) -> a_text sx (sub source m n).
Proof.
  intros L1 L2 L3 L4 B1 B2 H. split; [now apply sub_valid|]. intros k p i Hi (Li & t & E).
  pose proof (user_syntax_pat _ Hu _ _ Hi) as (Hp & _). rewrite sub_length in Li by lia.
  assert (Lp : 0 < length p) by (destruct p; [now destruct Hp|cbn; lia]).
  assert (Le : length (skipn i (sub source m n)) = length p + length t) by (now rewrite E, app_length). rewrite skipn_length, sub_length in Le by lia.
  apply (H k p (m + i) Hi); [lia|lia|]. split; [lia|]. exists (t ++ skipn n source).
  rewrite (Nat.add_comm m i), <- skipn_skipn. rewrite app_assoc, <- E. unfold sub.
  rewrite <- (firstn_skipn (n - m) (skipn m source)) at 1. rewrite skipn_app. rewrite firstn_length, skipn_length.
  replace (i - Nat.min (n - m) (length source - m)) with 0 by lia. cbn [skipn]. f_equal. rewrite skipn_skipn. f_equal. lia.
Qed.
Lemma tokens_ok full at_ md ts : tiling sx source full at_ md ts -> Forall tok_ok ts.
Proof.
  induction 1 as [at_ md H|at_ md m n at' ts H1 H2 H3 H4 H5 H6 H7 Hm H8 H9 H10 H11 Hr IH|m n k b ts Ho Ht Hr IH|m n k md ts Ho Ht Hm Hr IH|m n t e path ts H1 H2 H3 H4 Hd Hl Hx Hr IH]; constructor; auto.
  - unfold tok_ok, txt. cbn [fst snd sp_m sp_n]. eapply text_in; eauto.
  - unfold tok_ok. cbn [fst]. destruct k; exact I.
  - unfold tok_ok. cbn [fst]. destruct k; exact I.
  - unfold tok_ok, txt. cbn [fst snd sp_m sp_n]. assert (V : valid_utf8 (sub source m n)) by (apply sub_valid; auto; lia).
    destruct t; try exact I; try contradiction Hl.
    + destruct Hl as (Hn & Hs). split; [exact V|]. split; [exact Hs|exact Hn].
    + destruct Hl as (_ & c & cs & E & Hc & F). eapply number_chars; eauto.
    + exact V.
Qed.
(** A number comes only outside of paths. *)
Fixpoint runs (p : bool) (ts : list tok) : Prop :=
  match ts with
  | [] => True
  | (t, _) :: ts' => (t = TNumber -> p = false) /\ runs (match t with TBeginExpr | TBeginBlock => false | t => after_tok p t end) ts'
  end.
Lemma tiling_runs full at_ md ts : tiling sx source full at_ md ts -> forall p, (forall e b, md = MTag e b -> b = p) -> runs p (nonspace ts).
Proof.
  induction 1 as [at_ md H|at_ md m n at' ts H1 H2 H3 H4 H5 H6 H7 Hm H8 H9 H10 H11 Hr IH|m n k b ts Ho Ht Hr IH|m n k md ts Ho Ht Hm Hr IH|m n t e path ts H1 H2 H3 H4 Hd Hl Hx Hr IH]; intros p Hp.
  - exact I.
  - cbn [nonspace List.filter is_space fst negb runs]. split; [discriminate|]. apply IH. intros e b E. destruct md as [| |]; try discriminate E. now destruct (Hm close path).
  - destruct k; try discriminate Ho; cbn [tag_token nonspace List.filter is_space fst negb runs]; (split; [discriminate|]); apply IH; cbn; intros e0 b0 E; congruence.
  - destruct k; try discriminate Ho; cbn [tag_token nonspace List.filter is_space fst negb runs]; (split; [discriminate|]); apply IH; cbn; intros e0 b0 E; congruence.
  - specialize (Hp e path eq_refl). subst p. specialize (IH (after_tok path t)). assert (IH' : runs (after_tok path t) (nonspace ts)) by (apply IH; intros; congruence).
    destruct t; try contradiction Hl; cbn [nonspace List.filter is_space fst negb runs]; try (split; [discriminate|exact IH']); try exact IH'.
    split; [intros _; apply Hl|exact IH'].
Qed.
Lemma runs_app p a b : runs p (a ++ b) -> runs p a /\ exists q, runs q b.
Proof.
  revert p. induction a as [|[t sp] a IH]; intros p H; cbn [app runs] in *; [split; [exact I|eauto]|]. destruct H as (H1 & H2). apply IH in H2 as (H2 & H3). auto.
Qed.
Lemma runs_path p ts sp b : runs p (ts ++ (TIdent, sp) :: b) -> runs true b.
Proof.
  revert p. induction ts as [|[t s] ts IH]; intros p H; cbn [app runs] in H; destruct H as (H1 & H2); [exact H2|]. eapply IH; eauto.
Qed.

(** ** Expressions *)
Notation oks := (Forall tok_ok).
Lemma oks_cons t ts : oks (t :: ts) -> tok_ok t /\ oks ts.
Proof. apply Forall_cons_iff. Qed.
Lemma oks_app a b : oks (a ++ b) -> oks a /\ oks b.
Proof. apply Forall_app. Qed.
Ltac ok := repeat match goal with
  | H : oks (_ :: _) |- _ => let H' := fresh "Ho" in apply oks_cons in H as (H' & H); unfold tok_ok in H'; cbn [fst snd] in H'
  | H : oks (_ ++ _) |- _ => let H' := fresh "Hos" in apply oks_app in H as (H' & H)
  end.
Lemma unescaped_valid cs out : unescaped cs out -> Forall scalar cs -> valid_utf8 out.
Proof.
  assert (A : forall b s, (byte_N b < 128)%N -> valid_utf8 s -> valid_utf8 (b :: s)).
  { intros b s Hb V. apply (valid_app [b] s); [|exact V]. apply ascii_valid. constructor; auto. }
  induction 1; intros F; repeat match goal with F : Forall scalar (_ :: _) |- _ => apply Forall_cons_iff in F as (? & F) end; auto using valid_nil.
  - apply valid_app; [now apply valid_encode|auto].
  - apply A; [reflexivity|auto].
  - apply A; [reflexivity|auto].
  - apply A; [reflexivity|auto].
  - apply A; [reflexivity|auto].
  - apply A; [reflexivity|auto].
Qed.
Lemma string_valid w s : valid_utf8 w -> string_lit w s -> valid_utf8 s.
Proof.
  intros V (body & E & U). apply (unescaped_valid _ _ U). apply chars_scalar in V. rewrite E in V. apply Forall_cons_iff in V as (_ & V). now apply Forall_app in V.
Qed.
Lemma number_literal w neg v : a_number w -> number_lit w neg v -> a_literal v.
Proof. intros Hw H. destruct H as [z H|f H1 H2]; [constructor; apply H|]. eapply al_float; [exact Hw|]. now constructor. Qed.
Lemma s_access ts a : g_access source ts a -> oks ts -> forall o, a_step (mkpstep o (match a with AIndex i _ => KIndex i | AKey id => KName (word source (id_span id)) end)).
Proof. intros [sp v Hi|sp] H o; ok; unfold a_step; cbn [ps_key]; [apply Hi|exact Ho]. Qed.
Lemma s_members ts ms : g_members source ts ms -> oks ts -> Forall a_step (map (bare_step source) ms).
Proof. induction 1 as [|sp ts a ts' ms Ha Hm IH|sp ts a ts' ms Ha Hm IH]; intros H; ok; cbn [map]; constructor; auto; exact (s_access _ _ Ha Hos _). Qed.
Lemma s_base ts b : g_base source ts b -> oks ts -> a_atom (bare_base source b) /\ (runs true ts -> number_first (PAtom (bare_base source b)) = false).
Proof.
  intros [sp ts0 ms Hm|sp E|sp E|sp v E|sp0 sp v E|sp0 sp v E|sp s E] H; ok; cbn [bare_base a_atom].
  - split; [|reflexivity]. split; [exact Ho|]. eapply s_members; eauto.
  - split; [constructor|reflexivity].
  - split; [constructor|reflexivity].
  - split; [eapply number_literal; eauto|]. intros (R & _). discriminate (R eq_refl).
  - split; [eapply number_literal; eauto|]. intros (_ & R & _). discriminate (R eq_refl).
  - split; [eapply number_literal; eauto|]. intros (_ & R & _). discriminate (R eq_refl).
  - split; [|reflexivity]. constructor. eapply string_valid; eauto.
Qed.
Lemma s_args ts bs : g_args source ts bs -> oks ts -> map (bare_base source) bs <> [] /\ Forall a_atom (map (bare_base source) bs).
Proof.
  induction 1 as [ts b Hb|ts b c ts' bs Hb Ha IH]; intros H; cbn [map]; (split; [discriminate|]).
  - constructor; [eapply s_base; eauto|constructor].
  - ok. constructor; [eapply s_base; eauto|]. now apply IH.
Qed.
Lemma s_expr ts e : g_expr source ts e -> oks ts -> a_expr (bare_expr source e) /\ (runs true ts -> number_first (bare_expr source e) = false).
Proof.
  induction 1 as [ts b Hb|ts e p n He IH|ts e p n c ts' bs He IH Ha]; intros H; cbn [bare_expr a_expr number_first].
  - eapply s_base; eauto.
  - ok. destruct (IH Hos) as (H1 & H2). split; [|intros R; apply runs_app in R as (R & _); auto]. auto.
  - ok. destruct (IH Hos) as (H1 & H2). split; [|intros R; apply runs_app in R as (R & _); auto]. cbn [a_values]. split; [exact H1|]. split; [exact Ho0|]. eapply s_args; eauto.
Qed.
Lemma s_cond ts n e : g_cond source ts n e -> oks ts -> a_expr (bare_expr source e).
Proof. intros [ts0 e0 He|k ts0 e0 Hk He] H; ok; eapply s_expr; eauto. Qed.
Lemma s_tag i t p : tag_block i t -> oks t -> runs p t -> oks i /\ runs false i.
Proof. intros (b & e & ->) H R. ok. cbn [runs] in R. destruct R as (_ & R). apply runs_app in R as (R & _). auto. Qed.
Lemma kw_ok s ts : kw source s ts -> exists sp, ts = [(TKeyword, sp)].
Proof. intros (sp & -> & _). eauto. Qed.

(** ** Statements *)
Lemma sound :
  (forall ts s, g_stmt source ts s -> oks ts -> forall p, runs p ts -> a_stmt sx (bare_stmt source s)) /\
  (forall ts l, g_scope source ts l -> oks ts -> forall p, runs p ts -> a_template sx (bare source l)) /\
  (forall ts e, g_else source ts e -> oks ts -> forall p, runs p ts -> match e with Some l => a_template sx (bare source l) | None => True end).
Proof.
  apply g_mut.
  - intros sp H p R. ok. cbn. constructor. exact Ho.
  - intros b ts e en He H p R. ok. cbn. constructor. eapply s_expr; eauto.
  - intros t k sp s Hk Hl Ht H p R. destruct (s_tag _ _ _ Ht H R) as (Hi & _). ok. cbn. constructor. eapply string_valid; eauto.
  - intros t k sp s w ts e Hk Hl Hw He Ht H p R. destruct (s_tag _ _ _ Ht H R) as (Hi & _). ok. cbn. constructor; [eapply string_valid; eauto|eapply s_expr; eauto].
  - intros t k ts n c body thn rest els Hk Hc Ht _ IHb _ IHe H p R. ok. apply runs_app in R as (R1 & q & R). apply runs_app in R as (R2 & q' & R3).
    destruct (s_tag _ _ _ Ht Hos R1) as (Hi & _). ok. pose proof (s_cond _ _ _ Hc Hi) as Hc'. specialize (IHb Hos0 _ R2). specialize (IHe H _ R3).
    cbn [bare_stmt]. destruct els as [l|]; [now apply as_if_else|now apply as_if].
  - intros t k vs vars i ts e body l t' k' Hk Hvs Hi He Ht _ IHb Hk' Ht' H p R. ok. apply runs_app in R as (R1 & q & R). apply runs_app in R as (R2 & q' & R3).
    destruct (s_tag _ _ _ Ht Hos R1) as (Hin & Rn). ok. specialize (IHb Hos0 _ R2). destruct (s_expr _ _ He Hin) as (He1 & He2).
    apply kw_ok in Hi as (spi & ->). apply kw_ok in Hk as (spk & ->).
    assert (Rt : runs true ts).
    { destruct Hvs as [sp|k0 c v].
      - apply (runs_path false [(TKeyword, spk)] sp) in Rn. cbn [app runs] in Rn. apply Rn.
      - apply (runs_path false [(TKeyword, spk); (TIdent, k0); (TComma, c)] v) in Rn. cbn [app runs] in Rn. apply Rn. }
    destruct Hvs as [sp|k0 c v]; ok; cbn [bare_stmt id_span]; constructor; auto.
  - intros t k ts e a n body l t' k' Hk He Ha Ht _ IHb Hk' Ht' H p R. ok. apply runs_app in R as (R1 & q & R). apply runs_app in R as (R2 & q' & R3).
    destruct (s_tag _ _ _ Ht Hos R1) as (Hin & Rn). ok. specialize (IHb Hos0 _ R2). cbn [bare_stmt id_span]. constructor; auto. eapply s_expr; eauto.
  - intros. constructor.
  - intros b r e ts l _ IH H p R. ok. cbn [runs] in R. eapply IH; [exact H|]. apply R.
  - intros ts s ts' l _ IHs _ IHl H p R. ok. apply runs_app in R as (R1 & q & R). cbn. constructor; [eapply IHs; eauto|eapply IHl; eauto].
  - intros. exact I.
  - intros t k body l t' k' Hk Ht _ IHb Hk' Ht' H p R. ok. apply runs_app in R as (R1 & q & R). apply runs_app in R as (R2 & q' & R3). eapply IHb; eauto.
  - intros t k i ts n c body thn rest els Hk Hi Hc Ht _ IHb _ IHe H p R. ok. apply runs_app in R as (R1 & q & R). apply runs_app in R as (R2 & q' & R3).
    destruct (s_tag _ _ _ Ht Hos R1) as (Hin & _). ok. pose proof (s_cond _ _ _ Hc Hin) as Hc'. specialize (IHb Hos0 _ R2). specialize (IHe H _ R3).
    cbn [bare map bare_stmt]. constructor; [|constructor]. destruct els as [l|]; [now apply as_if_else|now apply as_if].
Qed.
Theorem tree_of_source l : derives sx source l -> a_template sx (bare source l).
Proof.
  intros (ts & Ht & Hg). destruct sound as (_ & S & _). eapply S; [exact Hg| |].
  - apply tokens_ok in Ht. unfold nonspace. clear - Ht. induction Ht; cbn [List.filter]; [constructor|]. destruct (negb _); [constructor; auto|auto].
  - apply (tiling_runs _ _ _ _ Ht false). discriminate.
Qed.
End TreeSound.
