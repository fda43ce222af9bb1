(** The token stream the parser reads: [Lexer::next] and the parser's one-token
    buffer, abstracted to a list of tokens and a final error. *)
From Verif Require Import Base Utf8 Ext Errors Syntax AhoCorasick SearchSpec SyntaxSpec AcProof Lexer LexSpec Wp TrimProof
  LexProof GrammarSpec Ast Parser.

Lemma ascii_chars s : valid_utf8 s -> Forall (fun c => (c < 128)%N) (chars s) -> asciib s = true.
Proof.
  intros V. induction V as [|c s Hc Hs IH] using valid_ind; intros HF; auto.
  rewrite chars_encode in HF by assumption. inversion HF; subst. unfold asciib.
  rewrite forallb_app. rewrite encode_ascii by assumption. simpl. rewrite byte_N_of by lia.
  rewrite (proj2 (N.ltb_lt c 128)) by assumption. simpl. now apply IH.
Qed.

Lemma asciib_app a b : asciib (a ++ b) = asciib a && asciib b.
Proof. unfold asciib. apply forallb_app. Qed.

Lemma nth_error_skipn {A} (l : list A) m k : nth_error (skipn m l) k = nth_error l (m + k).
Proof. revert l; induction m as [|m IH]; intros [|x l]; simpl; auto. now destruct k. Qed.
Lemma nth_error_firstn_lt {A} (l : list A) n k : k < n -> nth_error (firstn n l) k = nth_error l k.
Proof.
  revert n k; induction l as [|x l IH]; intros [|n] [|k] H; simpl; auto; try lia. apply IH. lia.
Qed.

Lemma ascii_boundary s m n i : asciib (sub s m n) = true -> m <= i -> i < n -> n <= length s -> boundary s i = true.
Proof.
  intros Ha H1 H2 H3. unfold boundary. destruct (nth_error s i) as [b|] eqn:E.
  - assert (Hin : In b (sub s m n)).
    { unfold sub. apply nth_error_In with (i - m). rewrite nth_error_firstn_lt by lia.
      rewrite nth_error_skipn. replace (m + (i - m)) with i by lia. exact E. }
    unfold asciib in Ha. rewrite forallb_forall in Ha. specialize (Ha b Hin). simpl in Ha.
    unfold is_cont. apply N.ltb_lt in Ha. rewrite (proj2 (N.leb_gt 128 (byte_N b))) by assumption. reflexivity.
  - apply nth_error_None in E. lia.
Qed.

Lemma nonspace_cons t ts : nonspace (t :: ts) = if is_space t then nonspace ts else t :: nonspace ts.
Proof. unfold nonspace. simpl. now destruct (is_space t). Qed.

Section TokStream.
Context `{X : Ext}.
Variable sx : syntax.
Hypothesis Hsx : user_syntax sx.
Variable sr : searcher.
Variable source : str.
Hypothesis Hsrc : valid_utf8 source.

(** ** Well-formed token lists *)

Definition word (t : token) : bool :=
  match t with TKeyword | TIdent | TIndex | TNumber | TString => true | _ => false end.
Definition tok_ok (t : tok) : Prop :=
  span_ok source (snd t) /\ sp_n (snd t) <= length source /\
  (word (fst t) = true -> exists p, lexeme p (fst t) (sub source (sp_m (snd t)) (sp_n (snd t)))) /\
  (fst t = TMinus \/ fst t = TPlus -> asciib (sub source (sp_m (snd t)) (sp_n (snd t))) = true).

(** [text]: outside tags. *)
Definition tok_step (text : bool) (t : token) (text' : bool) : Prop :=
  match t with
  | TRaw => text' = text
  | TBeginExpr | TBeginBlock | TBeginComment => text = true /\ text' = false
  | TEndExpr | TEndBlock | TEndComment => text = false /\ text' = true
  | TWhitespace => False
  | _ => text = false /\ text' = false
  end.

Inductive wf : nat -> bool -> list tok -> Prop :=
| wf_nil at_ text : wf at_ text []
| wf_cons at_ text t sp text' ts :
    at_ <= sp_m sp -> (text = false -> asciib (sub source at_ (sp_m sp)) = true) ->
    tok_ok (t, sp) -> tok_step text t text' -> wf (sp_n sp) text' ts ->
    wf at_ text ((t, sp) :: ts).

Lemma wf_app a b at_ text : wf at_ text (a ++ b) -> exists at' text', wf at' text' b.
Proof.
  revert at_ text; induction a as [|t a IH]; intros at_ text H; simpl in *; eauto.
  inversion H; subst. eauto.
Qed.

Lemma wf_weaken at_ at' ts : at' <= at_ -> at_ <= length source ->
  wf at_ false ts -> asciib (sub source at' at_) = true -> wf at' false ts.
Proof.
  intros Hle Hl Hwf Ha. inversion Hwf as [|? ? t sp text' ts' W1 W2 W3 W4 W5]; subst; [constructor|].
  apply wf_cons with text'; auto; try lia.
  intros _. rewrite (sub_split source at' at_ (sp_m sp)) by lia. rewrite asciib_app, Ha. simpl. auto.
Qed.

Lemma tag_token_facts k : word (tag_token k) = false /\ is_space (tag_token k, mkspan 0 0) = false.
Proof. now destruct k. Qed.

Lemma tiling_wf full at_ md ts : tiling sx source full at_ md ts ->
  wf at_ (match md with MText _ => true | _ => false end) (nonspace ts).
Proof.
  induction 1 as [at_ md He|at_ md m n at' ts R1 R2 R3 R4 R5 R6 R7 R8 R9 R10 R11 R12 Ht IH
                 |m n k b ts Hk Htag Ht IH|m n k md ts Hk Htag Hmd Ht IH
                 |m n t e path ts K1 K2 K3 K4 K5 K6 K7 Ht IH].
  - constructor.
  - rewrite nonspace_cons. cbn [is_space fst].
    assert (Hok : tok_ok (TRaw, mkspan m n)).
    { repeat split; cbn [fst snd sp_m sp_n]; auto; try lia; [discriminate|]. intros [|]; discriminate. }
    assert (Hm : match md with MText _ => true | _ => false end = false -> m = at_).
    { destruct md as [[|]| |]; auto; try discriminate. }
    econstructor; cbn [sp_m sp_n]; eauto; try lia.
    + intros Hf. rewrite (Hm Hf), sub_nil. reflexivity.
    + reflexivity.
    + (* raw is followed by a position past its (possibly trimmed) end *)
      destruct md as [b|e b|].
      * cbv iota in IH |- *. inversion IH as [|? ? t sp text' ts' W1 W2 W3 W4 W5]; subst; [constructor|].
        apply wf_cons with text'; auto; try lia; discriminate.
      * exfalso. now apply (R8 e b).
      * cbv iota in IH |- *. destruct R11 as [(N1 & _)|(_ & ->)]; auto. exfalso.
        destruct ts as [|[t sp] ts']; [contradiction|]. destruct N1 as (k & T1 & T2 & T3 & T4). subst t.
        inversion Ht as [? ? He|? ? ? ? ? ? S1 S2 S3 S4 S5 S6 S7 S8 S9|? ? k' b ? O1 O2 O3|? ? k' ? ? O1 O2 O3 O4|? ? ? ? ? ? K1 K2 K3 K4 K5]; subst.
        -- destruct k; discriminate.
        -- assert (k = k') by (eapply best_unique; eauto). congruence.
  - rewrite nonspace_cons. pose proof (tag_facts0 sx Hsx source Hsrc k m n Htag) as (F1 & F2 & F3 & F4 & _).
    replace (is_space (tag_token k, mkspan m n)) with false by now destruct k.
    apply wf_cons with false; cbn [sp_m sp_n]; auto.
    + discriminate.
    + repeat split; cbn [fst snd sp_m sp_n]; auto; try lia; destruct k; try discriminate; intros [|]; discriminate.
    + destruct k; try discriminate; simpl; auto.
    + destruct k; try discriminate; exact IH.
  - rewrite nonspace_cons. pose proof (tag_facts0 sx Hsx source Hsrc k m n Htag) as (F1 & F2 & F3 & F4 & _).
    replace (is_space (tag_token k, mkspan m n)) with false by now destruct k.
    replace (match md with MText _ => true | _ => false end) with false by (destruct Hmd as [(b & ->)|(-> & _)]; reflexivity).
    apply wf_cons with true; cbn [sp_m sp_n]; auto.
    + intros _. rewrite sub_nil. reflexivity.
    + repeat split; cbn [fst snd sp_m sp_n]; auto; try lia; destruct k; try discriminate; intros [|]; discriminate.
    + destruct k; try discriminate; simpl; auto.
  - rewrite nonspace_cons.
    assert (V : valid_utf8 (sub source m n)) by (apply sub_valid; auto; lia).
    destruct (is_space (t, mkspan m n)) eqn:Esp.
    + destruct t; try discriminate. simpl in K6. destruct K6 as [_ K6]. apply wf_weaken with n; auto; try lia.
      apply ascii_chars; auto. eapply Forall_impl; [|exact K6]. simpl. intros c Hc.
      unfold blank in Hc. rewrite orb_true_iff, !N.eqb_eq in Hc. lia.
    + apply wf_cons with false; cbn [sp_m sp_n]; auto.
      * intros _. rewrite sub_nil. reflexivity.
      * repeat split; cbn [fst snd sp_m sp_n]; auto; try lia.
        -- intros _. eauto.
        -- intros [->| ->]; simpl in K6; rewrite K6; reflexivity.
      * destruct t; simpl in K6; try contradiction; simpl; auto; discriminate.
Qed.

Lemma tiling_length full at_ md ts : tiling sx source full at_ md ts -> length ts <= length source - at_.
Proof.
  induction 1; simpl; try lia;
    match goal with Ht : tag_at _ _ _ _ _ |- _ => pose proof (tag_facts0 sx Hsx source Hsrc _ _ _ Ht) end; lia.
Qed.

Lemma tiling_suffix full ts a b : ts = a ++ b -> forall at_ md, tiling sx source full at_ md ts ->
  exists at' md', tiling sx source full at' md' b.
Proof.
  revert ts. induction a as [|t a IH]; intros ts -> at_ md H; simpl in *; eauto.
  inversion H; subst; eauto.
Qed.

(** Leading white space tokens. *)
Fixpoint leading (ts : list tok) : nat :=
  match ts with t :: ts' => if is_space t then S (leading ts') else 0 | [] => 0 end.
Lemma leading_length ts : leading ts <= length ts.
Proof. induction ts as [|t ts IH]; simpl; auto. destruct (is_space t); simpl; lia. Qed.

(** ** [Lexer::next] *)
Definition stream (lx : lexer) (ts : list tok) (fin : option error) : Prop :=
  exists raw full at_ md, lexes sr source lx raw fin /\ tiling sx source full at_ md raw /\ nonspace raw = ts.

Lemma next_loop_spec raw : forall fuel lx fin, lexes sr source lx raw fin -> leading raw < fuel ->
  match nonspace raw, fin with
  | t :: ts, _ => exists lx' raw' a, lexer_next_loop sr source fuel lx = Ok (Some t, lx') /\
       lexes sr source lx' raw' fin /\ nonspace raw' = ts /\ raw = a ++ raw'
  | [], None => exists lx', lexer_next_loop sr source fuel lx = Ok (None, lx') /\ lexes sr source lx' [] None
  | [], Some e => lexer_next_loop sr source fuel lx = Err e
  end.
Proof.
  induction raw as [|t raw IH]; intros fuel lx fin Hl Hf; (destruct fuel as [|fuel]; [lia|]).
  - cbn [nonspace filter lexer_next_loop]. inversion Hl as [? E|? ? E|]; subst; rewrite E; cbn [bind]; eauto.
  - inversion Hl as [| |? ? lx' ? ? E Hl']; subst. cbn [lexer_next_loop]. rewrite E. cbn [bind].
    rewrite nonspace_cons. simpl in Hf. destruct (is_space t) eqn:Esp.
    + destruct t as [tk sp]. unfold is_space in Esp. simpl in Esp. destruct tk; try discriminate.
      specialize (IH fuel lx' fin Hl' ltac:(lia)). destruct (nonspace raw) as [|t ts]; [exact IH|].
      destruct IH as (lx2 & raw2 & a & H1 & H2 & H3 & H4). exists lx2, raw2, ((TWhitespace, sp) :: a). rewrite H4. auto.
    + exists lx', raw, [t]. repeat split; auto. destruct t as [tk sp]. unfold is_space in Esp. simpl in Esp. destruct tk; try discriminate; reflexivity.
Qed.

Lemma next_cons lx t ts fin : stream lx (t :: ts) fin ->
  exists lx', lexer_next sr source lx = Ok (Some t, lx') /\ stream lx' ts fin.
Proof.
  intros (raw & full & at_ & md & Hl & Ht & En).
  pose proof (tiling_length _ _ _ _ Ht) as Hlen. pose proof (leading_length raw).
  pose proof (next_loop_spec raw (S (length source)) lx fin Hl ltac:(lia)) as H1. rewrite En in H1.
  destruct H1 as (lx' & raw' & a & H1 & H2 & H3 & H4). exists lx'. split; auto.
  destruct (tiling_suffix _ _ _ _ H4 _ _ Ht) as (at' & md' & Ht'). exists raw', full, at', md'. auto.
Qed.

Lemma next_nil lx : stream lx [] None ->
  exists lx', lexer_next sr source lx = Ok (None, lx') /\ stream lx' [] None.
Proof.
  intros (raw & full & at_ & md & Hl & Ht & En).
  pose proof (tiling_length _ _ _ _ Ht) as Hlen. pose proof (leading_length raw).
  pose proof (next_loop_spec raw (S (length source)) lx None Hl ltac:(lia)) as H1. rewrite En in H1.
  destruct H1 as (lx' & H1 & H2). exists lx'. split; auto. exists [], false, 0, (MText false).
  repeat split; auto. constructor. discriminate.
Qed.

Lemma next_err lx e : stream lx [] (Some e) -> lexer_next sr source lx = Err e.
Proof.
  intros (raw & full & at_ & md & Hl & Ht & En).
  pose proof (tiling_length _ _ _ _ Ht) as Hlen. pose proof (leading_length raw).
  pose proof (next_loop_spec raw (S (length source)) lx _ Hl ltac:(lia)) as H1. now rewrite En in H1.
Qed.

(** ** The parser's view *)
Definition abs (p : parser) (ts : list tok) (fin : option error) : Prop :=
  match ps_peeked p with
  | None => stream (ps_lexer p) ts fin
  | Some (Some t) => exists ts', ts = t :: ts' /\ stream (ps_lexer p) ts' fin
  | Some None => ts = [] /\ fin = None /\ stream (ps_lexer p) [] None
  end.

Lemma p_next_cons p t ts fin : abs p (t :: ts) fin ->
  exists p', p_next sr source p = Ok (Some t, p') /\ abs p' ts fin.
Proof.
  unfold abs, p_next. destruct (ps_peeked p) as [[t0|]|].
  - intros (ts' & E & H). injection E as <- <-. eauto.
  - intros (E & _). discriminate.
  - intros H. destruct (next_cons _ _ _ _ H) as (lx' & -> & H'). cbn [bind]. eauto.
Qed.
Lemma p_next_nil p : abs p [] None -> exists p', p_next sr source p = Ok (None, p') /\ abs p' [] None.
Proof.
  unfold abs, p_next. destruct (ps_peeked p) as [[t0|]|].
  - intros (ts' & E & H). discriminate.
  - intros (_ & _ & H). eauto.
  - intros H. destruct (next_nil _ H) as (lx' & -> & H'). cbn [bind]. eauto.
Qed.
Lemma p_next_err p e : abs p [] (Some e) -> p_next sr source p = Err e.
Proof.
  unfold abs, p_next. destruct (ps_peeked p) as [[t0|]|].
  - intros (ts' & E & H). discriminate.
  - intros (_ & E & H). discriminate.
  - intros H. now rewrite (next_err _ _ H).
Qed.
Lemma p_peek_cons p t ts fin : abs p (t :: ts) fin ->
  exists p', p_peek sr source p = Ok (Some t, p') /\ abs p' (t :: ts) fin.
Proof.
  unfold abs, p_peek. destruct (ps_peeked p) as [[t0|]|] eqn:Ep.
  - intros (ts' & E & H). injection E as <- <-. eexists. split; [reflexivity|]. rewrite Ep. eauto.
  - intros (E & _). discriminate.
  - intros H. destruct (next_cons _ _ _ _ H) as (lx' & -> & H'). cbn [bind]. eexists. split; [reflexivity|]. simpl. eauto.
Qed.
Lemma p_peek_nil p : abs p [] None -> exists p', p_peek sr source p = Ok (None, p') /\ abs p' [] None.
Proof.
  unfold abs, p_peek. destruct (ps_peeked p) as [[t0|]|] eqn:Ep.
  - intros (ts' & E & H). discriminate.
  - intros (_ & _ & H). eexists. split; [reflexivity|]. rewrite Ep. auto.
  - intros H. destruct (next_nil _ H) as (lx' & -> & H'). cbn [bind]. eexists. split; [reflexivity|]. simpl. auto.
Qed.
Lemma p_peek_err p e : abs p [] (Some e) -> p_peek sr source p = Err e.
Proof.
  unfold abs, p_peek. destruct (ps_peeked p) as [[t0|]|].
  - intros (ts' & E & H). discriminate.
  - intros (_ & E & H). discriminate.
  - intros H. now rewrite (next_err _ _ H).
Qed.
End TokStream.
