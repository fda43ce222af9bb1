(** Templates without delimiters. *)
From Verif Require Import Base Utf8 Ext Errors Syntax AhoCorasick SearchSpec SyntaxSpec Value Ast Lexer Parser Compiler Fmt Stack
  Filters Render Engine EngineSpec CompileFacts ParseMain RenderObs.

Section PlainText.
Context `{X : Ext}.
Variable sx : syntax.
Variable e : engine.
Hypothesis Hu : user_syntax sx.
Hypothesis He : engine_for sx e.
Variable source : str.
Hypothesis Hno : no_occurrence sx source 0.

Definition plain_code : list instr := match source with [] => [] | _ => [IEmitRaw (mkspan 0 (length source))] end.

Lemma plain_find : @find_at error (en_searcher e) source 0 = Ok None.
Proof.
  destruct (searcher_spec sx Hu _ (engine_searcher _ _ He) source 0) as (r & E & Hr). rewrite E. destruct r as [[[k i] j]|]; [|reflexivity].
  exfalso. destruct Hr as (_ & _ & _ & _ & _ & before & p & after & Es & Ho & _). refine (Hno k p i _ (Nat.le_0_l i) Ho).
  rewrite Es. apply in_or_app. right. now left.
Qed.
Lemma plain_first : source <> [] -> lexer_next (en_searcher e) source lexer_new =
  Ok (Some (TRaw, mkspan 0 (length source)), mklexer (length source) LTemplate false None).
Proof.
  intros Hne. unfold lexer_next. cbn [lexer_next_loop]. unfold lex. cbn [lexer_new lx_next lx_cursor lx_state].
  rewrite slice_from_Ok by apply boundary_0. cbn [bind skipn]. match goal with |- context [match source with [] => ?a | _ :: _ => ?b end] => replace (match source with [] => a | _ :: _ => b end) with b by (now destruct source) end.
  unfold lex_template. rewrite plain_find. cbn [bind lexer_new lx_left_trim lx_next lx_state trim_raw_token]. reflexivity.
Qed.
Lemma plain_second : lexer_next (en_searcher e) source (mklexer (length source) LTemplate false None) =
  Ok (None, mklexer (length source) LTemplate false None).
Proof.
  unfold lexer_next. cbn [lexer_next_loop]. unfold lex. cbn [lx_next lx_cursor]. rewrite slice_from_Ok by apply boundary_len. cbn [bind].
  rewrite skipn_all. reflexivity.
Qed.
Lemma plain_compiles : engine_compile source e = Ok (mktemplate source plain_code).
Proof.
  unfold engine_compile, compile_template, parse_template. destruct (str_eq_dec source []) as [Es|Hne].
  - unfold plain_code. rewrite Es. reflexivity.
  - replace plain_code with [IEmitRaw (mkspan 0 (length source))] by (unfold plain_code; now destruct source).
    assert (F : exists f, pfuel source = S (S f)) by (exists (2 * length source); unfold pfuel; lia). destruct F as (f & ->).
    cbn [parse_template_loop]. unfold p_next at 1. cbn [parser_new ps_peeked ps_lexer]. rewrite plain_first by exact Hne. cbn [bind parse_stmt push_stmt].
    unfold p_next at 1. cbn [ps_peeked ps_lexer]. rewrite plain_second. cbn [bind rev]. reflexivity.
Qed.
End PlainText.

Section PlainRender.
Context `{X : Ext}.
Variable inner : renderer_inner.
Variable source : str.
Hypothesis Hroot : ri_template inner = mktemplate source (plain_code source).

Definition plain_tree : rt unit :=
  match source with
  | [] => RRet (Ok tt)
  | _ => RWrite source (RRet (Ok tt)) (RRet (Err (match ri_template_name inner with Some n => with_template_name mk_fmt_error n | None => mk_fmt_error end)))
  end.
Lemma plain_render fuel st : 4 <= fuel -> render inner fuel st = plain_tree.
Proof.
  intros Hf. assert (Z0 : (max_include_depth inner <? 0)%N = false) by (apply N.ltb_ge; lia). do 4 (destruct fuel as [|fuel]; [lia|]). unfold render. rewrite Hroot. unfold plain_code, plain_tree. destruct (str_eq_dec source []) as [Es|Hne].
  - rewrite Es. cbn. destruct (ri_template_name inner); cbn; rewrite Z0; reflexivity.
  - match goal with |- context [match source with [] => [] | _ :: _ => ?b end] => replace (match source with [] => [] | _ :: _ => b end) with b by (now destruct source) end.
    match goal with |- _ = match source with [] => ?a | _ :: _ => ?b end => replace (match source with [] => a | _ :: _ => b end) with b by (now destruct source) end.
    cbn [render_loop ac_template ac_name ac_pc ac_has_scope render_one t_instrs nth_error exec_instr t_source].
    unfold index_span. cbn [sp_m sp_n]. rewrite slice_Ok by (try apply boundary_0; try apply boundary_len; lia). cbn [lift rbind].
    assert (Esub : sub source 0 (length source) = source) by (unfold sub; cbn [skipn]; rewrite Nat.sub_0_r; apply firstn_all). rewrite Esub.
    cbn [rbind name_err rmap_err nth_error length Nat.eqb Nat.add]. destruct (ri_template_name inner); cbn; rewrite Z0; reflexivity.
Qed.
End PlainRender.
