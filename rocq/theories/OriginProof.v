(** Every byte written is raw text of a template or written by a formatter. *)
From Verif Require Import Base Utf8 Ext Errors Syntax AhoCorasick SearchSpec SyntaxSpec Value Ast Lexer LexSpec Wp
  GrammarSpec Parser AstOk Compiler CompileProof ParseMain Fmt Stack Filters Render Engine EngineSpec CompileFacts
  RenderSpec RenderProof RenderErr MapFacts RenderMain RenderObs WriteSpec OriginSpec.

Fixpoint wall {A} (W : str -> Prop) (x : rt A) : Prop :=
  match x with RRet _ => True | RWrite s o e => W s /\ wall W o /\ wall W e end.

(** [wrote P W x]: if the tree [x] succeeds (no write refused) it wrote a
    concatenation of [P]-pieces; every single write is in [W]. *)
Definition wrote {A} (P W : str -> Prop) (x : rt A) : Prop :=
  (forall a, ending x = Ok a -> exists l, concat (pieces x) = concat l /\ Forall P l) /\ wall W x.

Section Wrote.
Variables P W : str -> Prop.
Lemma wrote_ret {A} (r : res A) : wrote P W (RRet r).
Proof. split; [|exact I]. intros a _. exists []. now split. Qed.
Lemma ending_bind {A B} (x : rt A) (f : A -> rt B) :
  match ending x with
  | Ok a => ending (rbind x f) = ending (f a) /\ pieces (rbind x f) = pieces x ++ pieces (f a)
  | Err e => ending (rbind x f) = Err e
  | Panic => ending (rbind x f) = Panic
  | OutOfFuel => ending (rbind x f) = OutOfFuel
  end.
Proof.
  induction x as [[a|e| |]|s o IHo e IHe]; cbn [ending rbind pieces]; auto.
  destruct (ending o); auto. destruct IHo as [-> ->]. now split.
Qed.
Lemma wall_bind {A B} (x : rt A) (f : A -> rt B) : wall W x -> (forall a, wall W (f a)) -> wall W (rbind x f).
Proof.
  induction x as [[a|e| |]|s o IHo e IHe]; cbn [wall rbind]; auto. intros (H & H1 & H2) Hf. auto.
Qed.
Lemma wrote_bind {A B} (x : rt A) (f : A -> rt B) : wrote P W x -> (forall a, wrote P W (f a)) -> wrote P W (rbind x f).
Proof.
  intros [H1 H2] Hf. split.
  - intros b E. pose proof (ending_bind x f) as K. destruct (ending x) as [a|e| |] eqn:Ex; try (rewrite K in E; discriminate).
    destruct K as [Ke Kp]. rewrite Ke in E. destruct (H1 a eq_refl) as (l1 & L1 & F1). destruct (proj1 (Hf a) b E) as (l2 & L2 & F2).
    exists (l1 ++ l2). rewrite Kp, !concat_app, L1, L2. split; auto. now apply Forall_app.
  - apply wall_bind; [exact H2|]. intros a. apply Hf.
Qed.
Lemma wrote_map_err {A} f (x : rt A) : wrote P W x -> wrote P W (rmap_err f x).
Proof.
  assert (E : forall a, (ending (rmap_err f x) = Ok a <-> ending x = Ok a)).
  { induction x as [[a0|e| |]|s o IHo e IHe]; cbn; intros a; auto; split; congruence. }
  assert (Ep : pieces (rmap_err f x) = pieces x).
  { clear E. induction x as [[a0|e| |]|s o IHo e IHe]; cbn; auto. now rewrite IHo. }
  intros [H1 H2]. split.
  - intros a Ha. apply E in Ha. rewrite Ep. eauto.
  - clear H1 E Ep. induction x as [[a0|e| |]|s o IHo e IHe]; cbn in *; auto. destruct H2 as (? & ? & ?). auto.
Qed.
Lemma wrote_name {A} n (x : rt A) : wrote P W x -> wrote P W (name_err n x).
Proof. apply wrote_map_err. Qed.
End Wrote.

Section Origin.
Context `{X : Ext}.
Variable inner : renderer_inner.
Variable ast_of : template -> scope.

Notation raw_text := (raw_text inner ast_of).
Notation formatted_text := (formatted_text inner ast_of).
Notation a_formatter := (a_formatter inner ast_of).
Notation formatter_write := (formatter_write inner ast_of).
Notation P := (fun s => raw_text s \/ formatted_text s).
Notation W := (fun s => raw_text s \/ formatter_write s).
Notation ok := (wrote P W).

Lemma run_fmt_says p on_err : (forall m a, on_err m <> Ok a) -> forall a, ending (run_fmt p on_err) = Ok a -> says p (concat (pieces (run_fmt p on_err))).
Proof.
  intros Hn. induction p as [|m|s o IHo e IHe]; cbn [run_fmt ending pieces concat]; intros a E.
  - constructor.
  - now apply Hn in E.
  - constructor. eauto.
Qed.
Lemma run_fmt_writes p on_err (V : str -> Prop) : (forall s, may_write p s -> V s) -> wall V (run_fmt p on_err).
Proof.
  induction p as [|m|s o IHo e IHe]; cbn [run_fmt wall]; intros H; auto.
  split; [apply H; constructor|]. split; [apply IHo|apply IHe]; intros t Ht; apply H; [now apply mw_ok|now apply mw_err].
Qed.
Lemma wrote_fmt f v on_err : a_formatter f -> (forall m a, on_err m <> Ok a) -> ok (run_fmt (f v) on_err).
Proof.
  intros Hf Hn. split.
  - intros a E. exists [concat (pieces (run_fmt (f v) on_err))]. cbn [concat]. rewrite app_nil_r. split; auto.
    constructor; auto. right. exists f, v. split; auto. eapply run_fmt_says; eauto.
  - apply run_fmt_writes. intros s Hs. right. exists f, v. auto.
Qed.
Lemma no_ok_format source sp : forall m a, @err_format X unit m source sp <> Ok a.
Proof. intros m a. unfold err_format. destruct (build_pretty source sp); discriminate. Qed.
Section One.
Variable inc : option rend.
Variable t : template.
Variable tname : option str.
Hypothesis Ht : provided inner t.
Hypothesis Hinc : forall run, inc = Some run -> forall t' n st h, provided inner t' -> ok (run t' n st h).
Notation source := (t_source t).

Lemma wrote_inline st e sp0 : part_of (ast_of t) (SInline e sp0) -> ok (s_inline inner source st e).
Proof.
  intros Hp. assert (D : forall v sp, ok (s_default inner source v sp)).
  { intros v sp. apply wrote_fmt; [constructor|apply no_ok_format]. }
  destruct e as [b|name [a|] recv sp]; cbn [s_inline].
  - apply wrote_bind; [apply wrote_ret|]. intros c. apply wrote_bind; [apply wrote_ret|]. intros sp'. apply D.
  - apply wrote_bind; [apply wrote_ret|]. intros c. apply wrote_bind; [apply wrote_ret|]. intros sp'. apply D.
  - apply wrote_bind; [apply wrote_ret|]. intros c. destruct (index_span source (id_span name)) as [nm| | |] eqn:En; try apply wrote_ret.
    cbn [lift rbind]. destruct (map_get nm (en_functions (ri_engine inner))) as [[f|f]|] eqn:E.
    + apply wrote_fmt; [exact (af_registered _ _ _ _ _ _ _ _ _ Ht Hp En E)|apply no_ok_format].
    + destruct (s_apply inner source st name [] c) as [v| | |]; try apply wrote_ret. apply D.
    + apply wrote_ret.
Qed.

Definition within (l : list stmt) : Prop := forall s, part_of l s -> part_of (ast_of t) s.
Lemma wrote_each body st frs : (forall st h, ok (body st h)) -> forall h, ok (s_each body st frs h).
Proof.
  intros Hb. induction frs as [|fr frs IH]; intros h; cbn [s_each]; [apply wrote_ret|].
  apply wrote_bind; [apply Hb|]. intros h'. apply IH.
Qed.
Lemma wrote_here {A} (r : res A) : ok (here tname r).
Proof. apply wrote_name, wrote_ret. Qed.
Lemma wrote_scope l : Forall (fun s => within [s] -> forall st h, ok (s_stmt inner inc source tname s st h)) l ->
  within l -> forall st h, ok (s_scope inner inc source tname l st h).
Proof.
  induction 1 as [|s l Hs Hl IH]; intros Hw st h; cbn [s_scope]; [apply wrote_ret|].
  apply wrote_bind.
  - apply Hs. intros sp Hsp. apply Hw. clear -Hsp. remember [s] as l0 eqn:E. induction Hsp; subst.
    + destruct H as [->|[]]. apply po_here. now left.
    + destruct H as [->|[]]. eapply po_then; [now left|exact Hsp].
    + destruct H as [->|[]]. eapply po_else; [now left|exact Hsp].
    + destruct H as [->|[]]. eapply po_for; [now left|exact Hsp].
    + destruct H as [->|[]]. eapply po_with; [now left|exact Hsp].
  - intros h'. apply IH. intros sp Hsp. apply Hw. clear -Hsp. remember l as l0 eqn:E. revert E. induction Hsp; intros ->.
    + apply po_here. now right.
    + eapply po_then; [right; exact H|exact Hsp].
    + eapply po_else; [right; exact H|exact Hsp].
    + eapply po_for; [right; exact H|exact Hsp].
    + eapply po_with; [right; exact H|exact Hsp].
Qed.
Lemma found_provided name h t' h' : s_find inner source name h = Ok (t', h') -> provided inner t'.
Proof.
  unfold s_find. destruct (ri_template_fn inner) as [f|] eqn:Ef.
  - destruct (f h (as_name name)) as [t0|r] eqn:E.
    + intros H. injection H as <- _. right. left. eauto.
    + unfold err_render. destruct (build_pretty source (as_span name)); discriminate.
  - destruct (map_get (as_name name) (en_templates (ri_engine inner))) as [t0|] eqn:E.
    + intros H. injection H as <- _. right. right. eauto.
    + unfold err_render. destruct (build_pretty source (as_span name)); discriminate.
Qed.
Lemma wrote_stmt s : within [s] -> forall st h, ok (s_stmt inner inc source tname s st h).
Proof.
  induction s as [sp|e sp|name g|neg c thn els IHt IHe|v e b IHb|e name b IHb] using stmt_ind'; intros Hw st h; cbn [s_stmt].
  - assert (Hr : part_of (ast_of t) (SRaw sp)) by (apply Hw, po_here; now left).
    unfold here, lift. destruct (index_span source sp) as [raw|e| |] eqn:E; try apply wrote_ret.
    cbn [name_err rmap_err rbind].
    assert (Hraw : raw_text raw) by (exists t, sp; auto). split.
    + intros a _. exists [raw]. split; [reflexivity|]. constructor; auto.
    + split; [now left|]. split; exact I.
  - apply wrote_bind; [apply wrote_name, (wrote_inline st e sp), Hw, po_here; now left|]. intros u. apply wrote_ret.
  - apply wrote_bind.
    + destruct g as [e|]; [|apply wrote_ret]. apply wrote_bind; [apply wrote_here|]. intros c. apply wrote_ret.
    + intros st'. unfold here, lift. destruct (s_find inner source name h) as [[t' h']|e| |] eqn:E; try apply wrote_ret.
      cbn [name_err rmap_err rbind]. destruct inc as [run|]; [|apply wrote_ret].
      apply (Hinc run eq_refl). eapply found_provided; eauto.
  - apply wrote_bind; [apply wrote_here|]. intros v.
    destruct (xorb neg _).
    + apply (wrote_scope thn IHt). intros sp Hsp. apply Hw. eapply po_then; [now left|exact Hsp].
    + destruct els as [l|]; [|apply wrote_ret]. apply (wrote_scope l IHe). intros sp Hsp. apply Hw. eapply po_else; [now left|exact Hsp].
  - apply wrote_bind; [apply wrote_here|]. intros c. apply wrote_bind; [apply wrote_here|]. intros sp.
    apply wrote_bind; [apply wrote_here|]. intros frs. apply wrote_each.
    apply (wrote_scope b IHb). intros sp' Hsp. apply Hw. eapply po_for; [now left|exact Hsp].
  - apply wrote_bind; [apply wrote_here|]. intros c.
    apply (wrote_scope b IHb). intros sp' Hsp. apply Hw. eapply po_with; [now left|exact Hsp].
Qed.
Lemma wrote_all h st : ok (s_scope inner inc source tname (ast_of t) st h).
Proof.
  apply wrote_scope; [|intros sp H; exact H]. apply Forall_forall. intros s _. apply wrote_stmt.
Qed.
End One.

Lemma wrote_template d : forall t n st h, provided inner t -> ok (s_template inner ast_of d t n st h).
Proof.
  induction d as [|d IH]; intros t n st h Ht; cbn [s_template]; apply wrote_all; auto.
  - discriminate.
  - intros run E. injection E as <-. exact IH.
Qed.
Lemma wrote_render st : ok (s_render inner ast_of st).
Proof. unfold s_render. apply wrote_bind; [apply wrote_template; now left|]. intros u. apply wrote_ret. Qed.
End Origin.

Lemma run_keeps {A} (W : str -> Prop) k (I : sk_state k -> Prop) : (forall w s, W s -> I w -> I (fst (sk_write k w s))) ->
  forall (x : rt A), wall W x -> forall w er, I w -> I (fst (fst (run k w er x))).
Proof.
  intros Hk. induction x as [r|s o IHo e IHe]; cbn [wall run]; intros H w er Hw; auto.
  destruct H as (Hs & Ho & He). specialize (Hk w s Hs Hw). destruct (sk_write k w s) as [w' [c|]]; auto.
Qed.
