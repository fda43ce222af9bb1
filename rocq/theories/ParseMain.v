(** From source text to syntax tree and program. *)
From Verif Require Import Base Utf8 Ext Errors Syntax AhoCorasick SearchSpec SyntaxSpec Value Ast Lexer LexSpec Wp TrimProof
  AcProof LexProof GrammarSpec Parser LitProof TokStream ParseProof ParseSound ParseComplete AstOk Compiler CompileProof.

Section ParseMain.
Context `{X : Ext}.
Variable sx : syntax.
Hypothesis Hsx : user_syntax sx.
Variable sr : searcher.
Hypothesis Hsr : @searcher_new error sx = Ok sr.
Variable source : str.
Hypothesis Hsrc : valid_utf8 source.
Hypothesis Hclosers : trims_ok sx source.

Notation derives := (GrammarSpec.derives sx source).

Lemma searcher_spec : forall h at_, exists r, @find_at error sr h at_ = Ok r /\
  match r with Some (k, i, j) => best sx h at_ k i j | None => no_occurrence sx h at_ end.
Proof.
  destruct (@find_at_spec error error sx) as (sr' & H1 & H2).
  { intros k p Hin. exact (proj1 (user_syntax_pat sx Hsx k p Hin)). }
  rewrite Hsr in H1. injection H1 as <-. exact H2.
Qed.

Lemma lexes_start : exists ts fin, lexes sr source lexer_new ts fin /\
  tiling sx source (match fin with None => true | Some _ => false end) 0 (MText false) ts.
Proof.
  pose proof (inv_new sx source) as Hi.
  destruct (lexes_total sx Hsx sr searcher_spec source Hsrc Hclosers _ _ _ _ Hi (Nat.lt_succ_diag_r _)) as (ts & fin & Hl & _).
  exists ts, fin. split; auto. eapply lexes_tiling; eauto using searcher_spec.
Qed.

Lemma stream_ok ts fin : lexes sr source lexer_new ts fin ->
  tiling sx source (match fin with None => true | Some _ => false end) 0 (MText false) ts ->
  ok sx sr source parser_new (nonspace ts) fin /\ top source (nonspace ts).
Proof.
  intros Hl Ht. pose proof (tiling_wf sx Hsx source Hsrc _ _ _ _ Ht) as Hw. cbn in Hw. split; [split; [|split]|].
  - cbn. eexists ts, _, _, _. split; [exact Hl|]. split; [exact Ht|reflexivity].
  - eexists _, _. exact Hw.
  - pose proof (tiling_length sx Hsx source Hsrc _ _ _ _ Ht) as Hlen. unfold nonspace.
    assert (length (filter (fun t => negb (is_space t)) ts) <= length ts); [|lia].
    clear. induction ts as [|t ts IH]; simpl; auto. destruct (negb (is_space t)); simpl; lia.
  - eexists. exact Hw.
Qed.

Lemma g_stmt_ne ts s : g_stmt source ts s -> ts <> [].
Proof.
  assert (T : forall i t, tag_block i t -> t <> []) by (intros i t (b & e & ->); discriminate).
  destruct 1; eauto using app_ne_l; discriminate.
Qed.

Lemma derives_empty s : source = [] -> (derives s <-> s = []).
Proof.
  intros Es. split.
  - intros (ts & Ht & Hg). apply (tiling_length sx Hsx source Hsrc) in Ht. rewrite Es in Ht. simpl in Ht.
    destruct ts; [|simpl in Ht; lia]. cbn in Hg. inversion Hg as [| |a b c d H1 H2 E E2]; auto.
    destruct a as [|x a]; [|discriminate]. now apply g_stmt_ne in H1.
  - intros ->. exists []. split; [|constructor]. constructor. now rewrite Es.
Qed.

Lemma parse_empty : source = [] -> parse_template sr source = Ok [].
Proof. intros E. rewrite E. reflexivity. Qed.

Lemma parse_sound : wp (parse_template sr source) derives.
Proof.
  destruct (str_eq_dec source []) as [Es|Hne].
  { rewrite (parse_empty Es). cbn. now apply derives_empty. }
  destruct lexes_start as (ts & fin & Hl & Ht). destruct (stream_ok ts fin Hl Ht) as [Hok Htop].
  unfold parse_template. apply wp_bind. eapply wp_mono.
  { apply (parse_template_loop_wp sx Hsx sr source Hsrc Hne (pfuel source) [] [] [[]] _ _ _ Hok Htop).
    - eapply ok_fuel; eauto.
    - constructor. constructor.
    - constructor. }
  intros [bl sc] (Ef & Hstk & Hb). cbn [app] in Hstk. destruct (rev bl) as [|b r] eqn:Er.
  - assert (bl = []) by (rewrite <- (rev_involutive bl), Er; reflexivity). subst bl.
    destruct (stk_nil _ _ _ _ Hstk eq_refl) as (l & -> & Hg). cbn [wp]. exists ts. rewrite Ef in Ht. auto.
  - assert (Hin : In b bl) by (rewrite <- (rev_involutive bl), Er; apply in_rev; rewrite rev_involutive; left; auto).
    rewrite Forall_forall in Hb. specialize (Hb b Hin). destruct b; cbn [bspan] in Hb; apply err_syntax_wp; auto.
Qed.

Lemma parse_complete s : derives s -> parse_template sr source = Ok s.
Proof.
  destruct (str_eq_dec source []) as [Es|Hne].
  { intros H. apply derives_empty in H; auto. subst s. now apply parse_empty. }
  intros (ts & Ht & Hg).
  pose proof (lexes_complete sx Hsx sr searcher_spec source Hsrc Hclosers _ _ _ Ht _ (inv_new sx source)) as Hl.
  destruct (stream_ok ts None Hl Ht) as [Hok Htop].
  destruct (stmts_ok sx Hsx sr source Hsrc Hne) as (_ & Hs & _).
  destruct (Hs _ _ Hg (pfuel source) parser_new [] [] [] []) as (f & p & Hf & Hp & E).
  { now rewrite app_nil_r. }
  { rewrite app_nil_r. eapply ok_fuel; eauto. }
  unfold parse_template. destruct f as [|f]; [simpl in Hf; lia|].
  destruct (ok_next_nil sx Hsx sr source Hsrc _ Hp) as (p' & E' & _). cbn [parse_template_loop] in E. rewrite E' in E. cbn [bind] in E.
  assert (E2 : parse_template_loop sr source (pfuel source) parser_new [] [[]] = Ok ([], [s])) by exact E.
  rewrite E2. reflexivity.
Qed.

Theorem parse_iff s : parse_template sr source = Ok s <-> derives s.
Proof.
  split; [|apply parse_complete]. intros E. pose proof parse_sound as H. rewrite E in H. exact H.
Qed.

Lemma derives_ok s : derives s -> Forall (stmt_ok source) s.
Proof.
  intros (ts & Ht & Hg). eapply (g_ok source); eauto. eexists _, _. eapply tiling_wf; eauto.
Qed.

Theorem compile_total : finished (compile_template sr source).
Proof.
  unfold compile_template. pose proof parse_sound as H. destruct (parse_template sr source) as [s|e| |]; try contradiction; [|exact I].
  cbn [bind wp] in *. rewrite (compile_scope_ok source s (derives_ok s H)). exact I.
Qed.

Theorem compile_iff t : compile_template sr source = Ok t <-> exists s, derives s /\ t = mktemplate source (cscope 0 s).
Proof.
  unfold compile_template. split.
  - intros E. pose proof parse_sound as H. destruct (parse_template sr source) as [s|e| |]; try contradiction; [|discriminate].
    cbn [bind wp] in *. rewrite (compile_scope_ok source s (derives_ok s H)) in E. cbn [bind] in E. injection E as <-. eauto.
  - intros (s & H & ->). rewrite (parse_complete s H). cbn [bind]. now rewrite (compile_scope_ok source s (derives_ok s H)).
Qed.
End ParseMain.
