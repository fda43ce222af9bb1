(** A source that compiles has nothing to blame: the clauses of [blame] describe
    mistakes only. *)
From Verif Require Import Base Utf8 Ext Errors Syntax AhoCorasick SearchSpec SyntaxSpec Value Ast Lexer LexSpec Wp TrimProof
  LexProof GrammarSpec LayoutSpec BlameSpec Parser TokStream ParseMain CompileFacts Words Automaton LexStop Trailing.

Section NoBlame.
Context `{X : Ext}.
Variable sx : syntax.
Hypothesis Hsx : user_syntax sx.
Variable sr : searcher.
Hypothesis Hsr : forall h at_, exists r, @find_at error sr h at_ = Ok r /\
  match r with Some (k, i, j) => best sx h at_ k i j | None => no_occurrence sx h at_ end.
Variable source : str.
Hypothesis Hsrc : valid_utf8 source.
Hypothesis Hclosers : trims_ok sx source.
Notation W := (words source).
Let best_facts := best_facts0 sx Hsx source Hsrc.
Let tag_facts := tag_facts0 sx Hsx source Hsrc.
Let tag_unique := tag_unique sx Hsx sr Hsr source Hsrc.
Let tag_occurs := tag_occurs sx source.

(** ** Two tokenizations of one source *)
Lemma tok_unique path t t' m n n' : m < n -> n <= length source -> m < n' -> n' <= length source ->
  boundary source m = true -> boundary source n = true -> boundary source n' = true ->
  lexeme path t (sub source m n) -> maximal t (skipn n source) -> lexeme path t' (sub source m n') -> maximal t' (skipn n' source) ->
  t = t' /\ n = n'.
Proof.
  intros L1 L2 L3 L4 B1 B2 B3 X1 M1 X2 M2.
  assert (G : forall t n, m < n -> n <= length source -> boundary source n = true -> lexeme path t (sub source m n) -> maximal t (skipn n source) ->
    exists c s, scalar c /\ valid_utf8 s /\ skipn m source = encode c ++ s /\
      lex_block_char source (if path then BPath else BUnknown) (char_indices (m + len_utf8 c) s) m c = Ok (t, n)).
  { clear t n L1 L2 X1 M1 B2 t' n' L3 L4 X2 M2 B3. intros t n L1 L2 B2 X1 M1.
    destruct (lex_block_char_complete sx Hsx sr Hsr source Hsrc (if path then BPath else BUnknown) m t (sub source m n) (skipn n source)) as (c & s & H1 & H2 & H3 & H4); auto; try lia.
    - apply sub_prefix. lia.
    - intros E. apply (f_equal (@length byte)) in E. rewrite sub_length in E by lia. simpl in E. lia.
    - apply sub_valid; auto. lia.
    - now apply boundary_split.
    - destruct path; auto.
    - exists c, s. split; auto. split; auto. split; auto. rewrite H4. f_equal. f_equal. rewrite sub_length by lia. lia. }
  destruct (G _ _ L1 L2 B2 X1 M1) as (c & s & C1 & C2 & C3 & C4). destruct (G _ _ L3 L4 B3 X2 M2) as (c' & s' & C1' & C2' & C3' & C4').
  rewrite C3 in C3'. pose proof (f_equal chars C3') as Ec. rewrite !chars_encode in Ec by assumption. injection Ec as <- _.
  apply app_inv_head in C3'. subst s'. rewrite C4 in C4'. injection C4' as <- <-. auto.
Qed.

Definition alike1 (a b : tok) : Prop := a = b \/ (fst a = TRaw /\ fst b = TRaw).
(** The mode after the tokens [pre]. *)
Inductive now (pre : list tok) : mode -> Prop :=
| now_text p q b : pre = p ++ q -> at_rest p -> Forall (fun u => fst u = TRaw) q -> now pre (MText b)
| now_tag t b path : in_tag pre t b -> t <> TBeginComment -> now pre (MTag (closing_of t) path)
| now_comment b : in_tag pre TBeginComment b -> now pre MComment.

Lemma tag_kind k : is_opening (tag_token k) = opening k. Proof. destruct k; reflexivity. Qed.
Lemma tag_delim k : is_delimiter (tag_token k) = true. Proof. destruct k; reflexivity. Qed.
Lemma lexeme_plain path t s : lexeme path t s -> is_delimiter t = false.
Proof. destruct t; simpl; try contradiction; reflexivity. Qed.

Lemma raw_end at_ a1 a2 : at_ < a1 -> at_ < a2 -> a1 <= length source -> a2 <= length source ->
  (forall k p i, In (k, p) sx -> at_ <= i -> i < a1 -> ~ occurs_at p source i) ->
  (forall k p i, In (k, p) sx -> at_ <= i -> i < a2 -> ~ occurs_at p source i) ->
  (a1 = length source \/ exists k p, In (k, p) sx /\ occurs_at p source a1) ->
  (a2 = length source \/ exists k p, In (k, p) sx /\ occurs_at p source a2) -> a1 = a2.
Proof.
  intros L1 L2 M1 M2 N1 N2 E1 E2. destruct (Nat.lt_trichotomy a1 a2) as [L|[L|L]]; auto; exfalso.
  - destruct E1 as [->|(k & p & Hin & Ho)]; [lia|]. apply (N2 k p a1); auto. lia.
  - destruct E2 as [->|(k & p & Hin & Ho)]; [lia|]. apply (N1 k p a2); auto. lia.
Qed.

Ltac inv_full H := inversion H as [? ? He|? ? ? ? ? ? S1 S2 S3 S4 S5 S6 S7 S8 S9 S10 S11 S12 S13|? ? k' b' ? O1 O2 O3|? ? k' ? ? O1 O2 O3 O4|? ? t' ? ? ? J1 J2 J3 J4 J5 J6 J7 J8]; subst.

Lemma prefix at_ md a : tiling sx source false at_ md a -> forall f pre, tiling sx source true at_ md f -> now pre md -> (a = [] -> at_ = reached pre) ->
  exists c r md', f = c ++ r /\ Forall2 alike1 a c /\ tiling sx source true (reached (pre ++ a)) md' r /\ now (pre ++ a) md'.
Proof.
  induction 1 as [at_ md _|at_ md m n at' ts R1 R2 R3 R4 R5 R6 R7 R8 R9 R10 R11 R12 Ht IH
                 |m n k b ts Hk Htag Ht IH|m n k md ts Hk Htag Hmd Ht IH
                 |m n t e path ts K1 K2 K3 K4 K5 K6 K7 Ht IH]; intros f pre Hf Hn Hr.
  - exists [], f, md. rewrite app_nil_r, <- (Hr eq_refl). auto.
  - inv_full Hf.
    + specialize (He eq_refl). lia.
    + assert (at'0 = at') by (eapply (raw_end at_); eauto). subst at'0.
      destruct (IH _ (pre ++ [(TRaw, mkspan m n)]) S13) as (c & r & md' & -> & F & Hc & Hn').
      * destruct Hn as [p q bb -> Hp Hq|t bb path Hi Ht'|bb Hi].
        -- apply now_text with p (q ++ [(TRaw, mkspan m n)]); auto; [now rewrite <- app_assoc|]. apply Forall_app. auto.
        -- exfalso. now apply (R8 (closing_of t) path).
        -- apply (now_comment _ bb). apply in_tag_more; auto.
      * intros ->. rewrite reached_snoc. cbn [sp_n]. destruct R11 as [(N1 & _)|(_ & N2)]; [destruct N1|auto].
      * exists ((TRaw, mkspan m0 n0) :: c), r, md'. rewrite <- app_assoc in Hc, Hn'. split; auto. split; [|auto]. constructor; auto. right. auto.
    + destruct (tag_occurs _ _ _ O2) as (p & Hin & Ho). exfalso. apply (R9 _ _ at_ Hin); auto.
    + destruct (tag_occurs _ _ _ O2) as (p & Hin & Ho). exfalso. apply (R9 _ _ at_ Hin); auto.
    + exfalso. eapply R8; reflexivity.
  - pose proof (tag_facts _ _ _ Htag) as (F1 & F2 & _). destruct (tag_occurs _ _ _ Htag) as (p & Hin & Ho). inv_full Hf.
    + specialize (He eq_refl). lia.
    + exfalso. apply (S9 _ _ m Hin); auto.
    + destruct (tag_unique _ _ _ _ _ Htag O2) as [<- <-].
      destruct (IH _ (pre ++ [(tag_token k, mkspan m n)]) O3) as (c & r & md' & -> & F & Hc & Hn').
      * pose proof (in_tag_open pre (tag_token k) (mkspan m n) ltac:(now rewrite tag_kind)) as Hi.
        destruct k; try discriminate; cbn [tag_token after_open] in *; first [eapply now_comment; exact Hi|eapply now_tag; [exact Hi|discriminate]].
      * intros _. now rewrite reached_snoc.
      * exists ((tag_token k, mkspan m n) :: c), r, md'. rewrite <- app_assoc in Hc, Hn'. split; auto. split; [|auto]. constructor; auto. now left.
    + destruct O3 as [(? & E)|(E & _)]; discriminate.
  - pose proof (tag_facts _ _ _ Htag) as (F1 & F2 & _). destruct (tag_occurs _ _ _ Htag) as (p & Hin & Ho). inv_full Hf.
    + specialize (He eq_refl). lia.
    + exfalso. apply (S9 _ _ m Hin); auto.
    + destruct Hmd as [(? & E)|(E & _)]; discriminate.
    + destruct (tag_unique _ _ _ _ _ Htag O2) as [<- <-].
      destruct (IH _ (pre ++ [(tag_token k, mkspan m n)]) O4) as (c & r & md' & -> & F & Hc & Hn').
      * eapply (now_text _ (pre ++ [(tag_token k, mkspan m n)]) []); [now rewrite app_nil_r| |constructor].
        right. exists pre, (tag_token k), (mkspan m n). split; auto. split; [apply tag_delim|now rewrite tag_kind].
      * intros _. now rewrite reached_snoc.
      * exists ((tag_token k, mkspan m n) :: c), r, md'. rewrite <- app_assoc in Hc, Hn'. split; auto. split; [|auto]. constructor; auto. now left.
    + exfalso. now apply (J5 _ _ Hin).
  - inv_full Hf.
    + specialize (He eq_refl). lia.
    + exfalso. eapply S8; reflexivity.
    + destruct (tag_occurs _ _ _ O2) as (p & Hin & Ho). exfalso. now apply (K5 _ _ Hin).
    + destruct (tok_unique path t t' m n n0) as [<- <-]; auto.
      destruct (IH _ (pre ++ [(t, mkspan m n)]) J8) as (c & r & md' & -> & F & Hc & Hn').
      * inversion Hn; subst. apply now_tag with b; auto. apply in_tag_more; auto. cbn. eapply lexeme_plain; eauto.
      * intros _. now rewrite reached_snoc.
      * exists ((t, mkspan m n) :: c), r, md'. rewrite <- app_assoc in Hc, Hn'. split; auto. split; [|auto]. constructor; auto. now left.
Qed.

(** ** The next token *)
Lemma rest_no_tag p q t b : at_rest p -> Forall (fun u => fst u = TRaw) q -> ~ in_tag (p ++ q) t b.
Proof.
  intros Hp Hq (a & inner & E & Ho & F). revert q Hq inner E F. induction q as [|x q IH] using rev_ind; intros Hq inner E F.
  - rewrite app_nil_r in E. destruct Hp as [->|(a' & t' & b' & -> & Hd & Hc)]; [destruct a; discriminate|].
    destruct inner as [|y inner _] using rev_ind.
    + apply app_inj_tail in E as [_ E]. injection E as -> ->. congruence.
    + change (a' ++ [(t', b')] = a ++ ((t, b) :: inner) ++ [y]) in E. rewrite app_assoc in E. apply app_inj_tail in E as [_ <-]. apply Forall_app in F as [_ F].
      inversion F as [|? ? F1 _]; subst. cbn in F1. congruence.
  - apply Forall_app in Hq as [Hq Hx]. inversion Hx as [|? ? Hx1 _]; subst. rewrite app_assoc in E. destruct inner as [|y inner _] using rev_ind.
    + apply app_inj_tail in E as [_ ->]. cbn in Hx1. subst t. discriminate.
    + change ((p ++ q) ++ [x] = a ++ ((t, b) :: inner) ++ [y]) in E. rewrite app_assoc in E. apply app_inj_tail in E as [E _]. apply Forall_app in F as [F _]. eauto.
Qed.
Lemma now_in_tag pre md t b : now pre md -> in_tag pre t b -> (t = TBeginComment /\ md = MComment) \/ (t <> TBeginComment /\ exists path, md = MTag (closing_of t) path).
Proof.
  intros Hn Hi. destruct Hn as [p q bb -> Hp Hq|t' bb path Hi' Ht'|bb Hi'].
  - destruct (rest_no_tag p q t b Hp Hq Hi).
  - destruct (in_tag_unique _ _ _ _ _ Hi Hi') as [-> _]. eauto.
  - destruct (in_tag_unique _ _ _ _ _ Hi Hi') as [-> _]. auto.
Qed.
Lemma rest_not_open p t b : at_rest p -> ~ in_tag p t b.
Proof. intros Hp Hi. apply (rest_no_tag p [] t b Hp); [constructor|now rewrite app_nil_r]. Qed.
Lemma now_rest pre md : now pre md -> at_rest pre -> exists b, md = MText b.
Proof.
  intros Hn Hr. destruct Hn as [p q bb -> Hp Hq|t' bb path Hi' Ht'|bb Hi']; eauto; destruct (rest_not_open _ _ _ Hr Hi').
Qed.

Lemma tag_next k at_ n md r : tag_at sx source k at_ n -> tiling sx source true at_ md r ->
  (opening k = true /\ exists b, md = MText b) \/
  (opening k = false /\ ((exists b, md = MTag (tag_token k) b) \/ (md = MComment /\ tag_token k = TEndComment))).
Proof. intros Ht Hti. destruct (tiling_at_tag sx Hsx sr Hsr source Hsrc _ _ _ _ _ Ht Hti) as (? & _ & H). exact H. Qed.
(** The next delimiter is the one the mode asks for. *)
Lemma best_next k at_ m n md r : best sx source at_ k m n -> tiling sx source true at_ md r -> ((exists e b, md = MTag e b) -> m = at_) ->
  (opening k = true /\ exists b, md = MText b) \/
  (opening k = false /\ ((exists b, md = MTag (tag_token k) b) \/ (md = MComment /\ tag_token k = TEndComment))).
Proof.
  intros Hb Hti Hm. pose proof (best_facts _ _ _ _ Hb) as (F1 & F2 & F3 & F4 & F5 & F6 & F7 & F8).
  destruct (tag_occurs _ _ _ F7) as (p & Hin & Ho).
  destruct (Nat.eq_dec m at_) as [->|Hne]; [eapply tag_next; eauto|].
  inv_full Hti.
  - specialize (He eq_refl). lia.
  - assert (Ea : at' = m).
    { destruct (Nat.lt_trichotomy at' m) as [L|[L|L]]; auto; exfalso.
      - destruct S10 as [->|(k0 & p0 & Hin0 & Ho0)]; [lia|]. apply (F8 k0 p0 at'); auto. lia.
      - apply (S9 k p m); auto. }
    subst at'. pose proof (tag_next _ _ _ _ _ F7 S13) as H. destruct md as [b| |]; auto.
    destruct H as [(H1 & H2)|(H1 & H2)]; [left; eauto|]. right. split; auto. destruct H2 as [(? & E)|(E & _)]; discriminate.
  - destruct (tag_occurs _ _ _ O2) as (p0 & Hin0 & Ho0). exfalso. apply (F8 k' p0 at_); auto. lia.
  - destruct (tag_occurs _ _ _ O2) as (p0 & Hin0 & Ho0). exfalso. apply (F8 k' p0 at_); auto. lia.
  - exfalso. apply Hne. eauto.
Qed.

(** Inside of a tag, if no delimiter comes next, a token does. *)
Lemma tok_next at_ e path r : tiling sx source true at_ (MTag e path) r -> (forall k p, In (k, p) sx -> ~ occurs_at p source at_) -> at_ < length source ->
  exists t s rest, lexeme path t s /\ skipn at_ source = s ++ rest /\ s <> [] /\ valid_utf8 s /\ valid_utf8 rest.
Proof.
  intros Hti Hno Hlt. inv_full Hti.
  - specialize (He eq_refl). lia.
  - exfalso. eapply S8; reflexivity.
  - destruct (tag_occurs _ _ _ O2) as (p0 & Hin0 & Ho0). exfalso. eapply Hno; eauto.
  - exists t', (sub source at_ n), (skipn n source). split; auto. split; [apply sub_prefix; lia|]. split; [|split].
    + intros E. apply (f_equal (@length byte)) in E. rewrite sub_length in E by lia. simpl in E. lia.
    + apply sub_valid; auto. lia.
    + now apply boundary_split.
Qed.
Lemma lexeme_first path t s c cs : lexeme path t s -> chars s = c :: cs -> begins_token c.
Proof.
  intros H E. unfold begins_token. destruct t; simpl in H; try contradiction; try (subst s; vm_compute in E; injection E as <- _; right; right; right; simpl; tauto).
  - destruct H as [_ F]. rewrite E in F. inversion F. auto.
  - destruct H as [_ (c' & cs' & E' & (I1 & _) & _)]. rewrite E' in E. injection E as <- <-. auto.
  - destruct H as [_ (c' & cs' & E' & (I1 & _) & _)]. rewrite E' in E. injection E as <- <-. auto.
  - destruct H as (_ & _ & F). rewrite E in F. inversion F. auto.
  - destruct H as (_ & c' & cs' & E' & I1 & _). rewrite E' in E. injection E as <- <-. auto.
  - destruct H as (body & E' & _). rewrite E' in E. injection E as <- <-. right. right. right. simpl. tauto.
Qed.
Lemma question_lexeme path t s cs : lexeme path t s -> chars s = 63%N :: cs -> s = s2b "?.".
Proof.
  intros H E. destruct t; simpl in H; try contradiction; try (subst s; vm_compute in E; discriminate); auto.
  - destruct H as [_ F]. rewrite E in F. inversion F as [|? ? F1 _]; subst. discriminate.
  - destruct H as [_ (c' & cs' & E' & (_ & _ & _ & I1) & _)]. rewrite E' in E. injection E as -> <-. exfalso. apply I1. simpl. tauto.
  - destruct H as [_ (c' & cs' & E' & (_ & _ & _ & I1) & _)]. rewrite E' in E. injection E as -> <-. exfalso. apply I1. simpl. tauto.
  - destruct H as (_ & _ & F). rewrite E in F. inversion F as [|? ? F1 _]; subst. discriminate.
  - destruct H as (_ & c' & cs' & E' & I1 & _). rewrite E' in E. injection E as -> <-. discriminate.
  - destruct H as (body & E' & _). rewrite E' in E. discriminate.
Qed.
Lemma string_lexeme path t s cs : lexeme path t s -> chars s = 34%N :: cs -> exists body, cs = body ++ [34%N] /\ str_body_ok 34%N body.
Proof.
  intros H E. pose proof (quote_lexeme path t s cs E H) as ->. destruct H as (body & E' & Hb). rewrite E' in E. injection E as <-. eauto.
Qed.
Lemma body_ok_in prev before c after : str_body_ok prev (before ++ c :: after) -> str_char_ok (last before prev) c.
Proof.
  revert prev. induction before as [|x before IH]; intros prev H; [exact (proj1 H)|]. rewrite last_shift. apply IH. exact (proj2 H).
Qed.
Lemma body_ok_last prev body : str_body_ok prev body -> last body prev <> 92%N.
Proof.
  revert prev. induction body as [|x body IH]; intros prev H; [exact H|]. rewrite last_shift. apply IH. exact (proj2 H).
Qed.
(** A list that ends in a quote after an unescaped string, against one that never gets there. *)
Lemma string_clash body body' r r' : str_body_ok 34%N body' ->
  (forall before c after, body = before ++ c :: after -> str_char_ok (last before 34%N) c) ->
  (r = [] \/ exists r0, r = 10%N :: r0 \/ r = 13%N :: r0) -> body ++ r = (body' ++ [34%N]) ++ r' -> False.
Proof.
  intros Hb Hbody Hr E. rewrite <- app_assoc in E. change ([34%N] ++ r') with (34%N :: r') in E.
  apply app_eq_app in E as (l & [(E1 & E2)|(E1 & E2)]).
  - destruct l as [|x l].
    + destruct Hr as [->|(r0 & [->| ->])]; discriminate.
    + injection E2 as <- E2. specialize (Hbody _ _ _ E1). destruct Hbody as (_ & _ & H). apply (body_ok_last 34%N body' Hb). auto.
  - destruct l as [|x l].
    + destruct Hr as [->|(r0 & [->| ->])]; discriminate.
    + assert (Hx : x = 10%N \/ x = 13%N) by (destruct Hr as [->|(r0 & [->| ->])]; [discriminate|injection E2; auto|injection E2; auto]).
      subst body'. apply body_ok_in in Hb. destruct Hb as (H1 & H2 & _). intuition.
Qed.

Lemma no_stop pre md r sp why : now pre md -> tiling sx source true (reached pre) md r -> ~ stop sx source pre sp why.
Proof.
  intros Hn Hti Hs.
  assert (IT : forall t b, in_tag pre t b -> t <> TBeginComment -> no_delimiter sx source pre -> forall c s, scalar c -> skipn (reached pre) source = encode c ++ s ->
    exists path t' w rest cs, lexeme path t' w /\ skipn (reached pre) source = w ++ rest /\ valid_utf8 w /\ valid_utf8 rest /\ chars w = c :: cs).
  { intros t b Hi Ht Hno c s Hc E. destruct (now_in_tag _ _ _ _ Hn Hi) as [[-> _]|(_ & path & ->)]; [congruence|].
    assert (Hlt : reached pre < length source).
    { apply (f_equal (@length byte)) in E. rewrite skipn_length, app_length in E. pose proof (encode_nonempty c) as Hne. destruct (encode c); [congruence|cbn [length] in E; lia]. }
    destruct (tok_next _ _ _ _ Hti Hno Hlt) as (t' & w & rest & L & Ew & Hne & Vw & Vr). exists path, t', w, rest.
    destruct (chars w) as [|c' cs] eqn:Ec; [apply chars_nil_inv in Ec; congruence|]. exists cs. split; auto. split; auto. split; auto. split; auto.
    destruct (chars_cons_inv w c' cs Vw Ec) as (Hc' & w' & Vw' & -> & _). rewrite E, <- app_assoc in Ew.
    destruct (encode_app_inj _ _ _ _ Hc Hc' Ew). congruence. }
  destruct Hs as [t b k m n Hi [Hb Hd] Ho|k m n Hr Hb Ho|t b k m n Hi [Hb Hd] Ho Hc|t b c r0 Hi Ht Hno Hc E Hb|t b c r0 Hi Ht Hno Hc E Hne|t b Hi Ht Hno E|t b body r0 Hi Ht Hno E Fb Hbody Hr0].
  - destruct (best_next _ _ _ _ _ _ Hb Hti) as [(_ & bb & ->)|(H & _)]; [|inversion Hn; subst; exfalso; eapply rest_no_tag; eauto|congruence].
    intros (e & p & ->). apply (Hd t b Hi). intros ->. destruct (now_in_tag _ _ _ _ Hn Hi) as [[_ H]|[H _]]; [discriminate|congruence].
  - destruct (now_rest _ _ Hn Hr) as [bb ->]. destruct (best_next _ _ _ _ _ _ Hb Hti) as [(H & _)|(_ & [(? & H)|(H & _)])]; [|congruence|discriminate|discriminate].
    intros (? & ? & H). discriminate.
  - destruct (best_next _ _ _ _ _ _ Hb Hti) as [(H & _)|(_ & H)]; [|congruence|].
    + intros (e & p & ->). apply (Hd t b Hi). intros ->. destruct (now_in_tag _ _ _ _ Hn Hi) as [[_ H]|[H _]]; [discriminate|congruence].
    + destruct (now_in_tag _ _ _ _ Hn Hi) as [[-> ->]|[_ [p ->]]]; destruct H as [(? & H)|(H & H')]; try discriminate; [cbn in Hc; congruence|injection H as ? ?; congruence].
  - destruct (IT t b Hi Ht Hno c r0 Hc E) as (path & t' & w & rest & cs & L & _ & _ & _ & Ec). apply Hb. eapply lexeme_first; eauto.
  - destruct (IT t b Hi Ht Hno 63%N (encode c ++ r0)) as (path & t' & w & rest & cs & L & Ew & _ & _ & Ec); [left; lia|exact E|].
    pose proof (question_lexeme _ _ _ _ L Ec) as ->. rewrite E in Ew. change (s2b "?." ++ rest) with (s2b "?" ++ encode 46 ++ rest) in Ew. apply app_inv_head in Ew.
    apply encode_app_inj in Ew as [Ew _]; [contradiction|auto|left; lia].
  - destruct (IT t b Hi Ht Hno 63%N []) as (path & t' & w & rest & cs & L & Ew & _ & _ & Ec); [left; lia|exact E|].
    pose proof (question_lexeme _ _ _ _ L Ec) as ->. rewrite E in Ew. discriminate.
  - destruct (IT t b Hi Ht Hno 34%N (flat_map encode body ++ r0)) as (path & t' & w & rest & cs & L & Ew & Vw & Vr & Ec); [left; lia|exact E|].
    destruct (string_lexeme _ _ _ _ L Ec) as (body' & -> & Hb').
    assert (Vr0 : valid_utf8 r0).
    { destruct (now_in_tag _ _ _ _ Hn Hi) as [[-> _]|_]; [congruence|].
      assert (V : valid_utf8 ((s2b """" ++ flat_map encode body) ++ r0)) by (rewrite <- app_assoc, <- E, Ew; now apply valid_app).
      apply (fun H => valid_app_inv_l _ _ H V). change (valid_utf8 (encode 34 ++ flat_map encode body)). exists (34%N :: body). split; [constructor; [left; lia|auto]|reflexivity]. }
    pose proof (f_equal chars Ew) as Ech. rewrite E in Ech. change (s2b """") with (encode 34) in Ech.
    assert (Vb : valid_utf8 (flat_map encode body)) by (exists body; auto).
    rewrite chars_encode, chars_app, chars_flat_map, (chars_app w), Ec in Ech by (auto; try (left; lia); now apply valid_app).
    injection Ech as Ech. apply (string_clash body body' (chars r0) (chars rest) Hb' Hbody); auto.
    destruct Hr0 as [->|(r1 & [->| ->])]; [left; reflexivity|right; exists (chars r1); left|right; exists (chars r1); right].
    + change (x0a :: r1) with (encode 10 ++ r1) in *. apply chars_encode; [left; lia|]. apply (fun H => valid_app_inv_l _ _ H Vr0). exists [10%N]. split; [constructor; [left; lia|auto]|reflexivity].
    + change (x0d :: r1) with (encode 13 ++ r1) in *. apply chars_encode; [left; lia|]. apply (fun H => valid_app_inv_l _ _ H Vr0). exists [13%N]. split; [constructor; [left; lia|auto]|reflexivity].
Qed.

(** ** Sentences *)
Definition same_kind (w w' : wd) : Prop := w = w' \/ (fst w = TRaw /\ fst w' = TRaw).
Lemma raw_next s a b : nextq s (TRaw, a) = nextq s (TRaw, b).
Proof. destruct s; reflexivity. Qed.
Lemma frun_same ws ws' : Forall2 same_kind ws ws' -> forall c d, frun c ws d -> frun c ws' d.
Proof.
  induction 1 as [|w w' ws ws' Hw F IH]; intros c d; [auto|]. cbn [frun]. intros (c1 & S & R). exists c1. split; [|auto].
  destruct Hw as [<-|[H1 H2]]; auto. destruct w as [t a], w' as [t' b]. cbn in H1, H2. subst t t'.
  unfold fstep, step in *. rewrite (raw_next _ b a). destruct S as (o & (S1 & S2 & S3) & S4). exists o. split; auto. split; auto. split; [exact I|]. intros H. discriminate.
Qed.
Lemma nonspace_alike a c : Forall2 alike1 a c -> Forall2 same_kind (W (nonspace a)) (W (nonspace c)).
Proof.
  unfold nonspace. induction 1 as [|x y a c H F IH]; [constructor|]. cbn [List.filter].
  assert (E : is_space x = is_space y) by (destruct H as [->|[H1 H2]]; auto; destruct x as [t ?], y as [t' ?]; cbn in *; subst; reflexivity).
  rewrite E. destruct (negb (is_space y)); auto. cbn [words map]. constructor; auto.
  destruct H as [->|[H1 H2]]; [now left|]. right. destruct x as [t ?], y as [t' ?]; cbn in *; subst; auto.
Qed.
Lemma flip_same a b : Forall2 same_kind a b -> Forall2 same_kind b a.
Proof. induction 1 as [|x y a b H F IH]; constructor; auto. destruct H as [->|[H1 H2]]; [now left|right; auto]. Qed.

Lemma frun_prefix raw f s : tiling sx source false 0 (MText false) raw -> tiling sx source true 0 (MText false) f -> g_scope source (nonspace f) s ->
  (exists more, sentence (W (nonspace raw) ++ more)) /\ forall sp why, ~ stop sx source raw sp why.
Proof.
  intros Hr Hf G. destruct (prefix _ _ _ Hr f [] Hf) as (c & r & md' & -> & F & Hti & Hn); [|reflexivity|].
  - apply (now_text [] [] []); auto; left; reflexivity.
  - split; [|intros sp why; eapply no_stop; eauto]. exists (W (nonspace r)). apply frun_sentence.
    assert (S : sentence (W (nonspace (c ++ r)))) by (exists source, (nonspace (c ++ r)), s; auto). apply sentence_run in S. unfold nonspace in S. rewrite List.filter_app, words_app in S.
    eapply frun_same; [|exact S]. apply Forall2_app; [apply flip_same, nonspace_alike; auto|]. clear. unfold nonspace. generalize (W (List.filter (fun t => negb (is_space t)) r)). intros l. induction l; constructor; auto. now left.
Qed.

Theorem no_blame s sp why : derives sx source s -> ~ blame sx source sp why.
Proof.
  intros (f & Hf & G) B.
  destruct B as [raw whole part t sp rest why Hr E V T P N _|raw whole part lit t tsp sp rest why Hr E V T P N D L M|raw whole tag rest name Hr E V T P N _|raw whole tag rest name Hr E V S T N _|raw whole part what Hr E V T P N _|raw whole part sp why Hr E V T P N].
  - destruct (frun_prefix _ _ _ Hr Hf G) as [(more & S) _]. apply N. exists (W whole), (W rest ++ more). rewrite E in S.
    revert S. rewrite !words_app. change (W ((t, sp) :: rest)) with (W ([(t, sp)] ++ rest)). rewrite words_app, <- !app_assoc. auto.
  - destruct (frun_prefix _ _ _ Hr Hf G) as [(more & S) _]. apply N. exists (W whole), (W rest ++ more). rewrite E in S.
    revert S. rewrite !words_app. change (W ((t, tsp) :: rest)) with (W ([(t, tsp)] ++ rest)). rewrite words_app, <- !app_assoc. auto.
  - destruct (frun_prefix _ _ _ Hr Hf G) as [(more & S) _]. apply N. exists (W rest ++ more). rewrite E in S. revert S. rewrite !words_app, <- !app_assoc. auto.
  - assert (raw = f) by (eapply tiling_unique; eauto). subst f. apply (N rest []); [now rewrite app_nil_r|]. rewrite <- E. exists source, (nonspace raw), s. auto.
  - assert (raw = f) by (eapply tiling_unique; eauto). subst f. apply N. exists (W whole). rewrite <- words_app, <- E. exists source, (nonspace raw), s. auto.
  - destruct (frun_prefix _ _ _ Hr Hf G) as [_ H]. eapply H; eauto.
Qed.
End NoBlame.
