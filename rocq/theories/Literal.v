(** Templates that consist of one literal, or of one path. *)
From Verif Require Import Base Utf8 Ext Errors Syntax AhoCorasick SearchSpec SyntaxSpec Value Ast Lexer LexSpec LexProof Wp
  GrammarSpec Parser LitProof AstOk Compiler CompileProof ParseMain Fmt Stack Filters Render Engine EngineSpec CompileFacts RenderObs Wrap.
From Verif Require TokStream.

(** ** Characters of ASCII texts *)
Definition low (b : byte) : Prop := (byte_N b < 128)%N.
Lemma low_asciib s : Forall low s -> asciib s = true.
Proof. unfold asciib. induction 1 as [|b s H _ IH]; [reflexivity|]. cbn. rewrite IH, andb_true_r. now apply N.ltb_lt. Qed.
Lemma low_chars s rest : Forall low s -> valid_utf8 rest -> chars (s ++ rest) = map byte_N s ++ chars rest.
Proof.
  induction 1 as [|b s H Hs IH]; intros V; [reflexivity|]. cbn [app map].
  pose proof (chars_encode (byte_N b) (s ++ rest) ltac:(unfold scalar, low in *; lia)
    (valid_app _ _ (asciib_valid _ (low_asciib _ Hs)) V)) as E.
  rewrite encode_ascii in E by exact H. replace (byte_of (byte_N b)) with b in E by (unfold byte_of, byte_N; now rewrite Byte.of_to_N).
  cbn [app] in E. rewrite E. f_equal. now apply IH.
Qed.
Lemma low_chars_all s : Forall low s -> chars s = map byte_N s.
Proof. intros H. pose proof (low_chars s [] H valid_nil) as E. rewrite !app_nil_r in E. exact E. Qed.

(** ** Rendering *)
Section Render.
Context `{X : Ext}.

Lemma rmap_err_id {A} (x : rt A) : rmap_err (fun e => e) x = x.
Proof. induction x as [[]|s o IHo e IHe]; cbn; auto. now rewrite IHo, IHe. Qed.

(** What a formatter does with a value, in a template without a name. *)
Definition formatted (f : formatter) (v : value) (source : str) (sp : span) : rt unit := run_fmt (f v) (fun m => err_format m source sp).

Lemma emit_render e source b fuel st c : 5 <= fuel ->
  match b with BVar v => lookup_var st source v = Ok c | BLit v _ => c = Owned v end ->
  render (template_renderer (mktemplate source (cinline (EBase b))) e) fuel st =
  rbind (formatted (en_default_formatter e) (cow_val c) source (span_or (EBase b))) (fun _ => RRet (Ok tt)).
Proof.
  intros Hf Hb. do 5 (destruct fuel as [|fuel]; [lia|]). unfold render, template_renderer. cbn [ri_template ri_template_name].
  set (inner := mkinner _ _ _ _ _). assert (Z0 : (max_include_depth inner <? 0)%N = false) by (apply N.ltb_ge; lia).
  cbn [render_loop ac_template ac_name ac_pc ac_has_scope render_one t_instrs cinline cexpr app nth_error].
  assert (E1 : exec_instr inner (mktemplate source (cinline (EBase b))) (cbase b) 0 st None = RRet (Ok (NGo 1 st (Some c)))).
  { destruct b as [v|v sp]; cbn [cbase exec_instr t_source]; [now rewrite Hb|now subst c]. }
  cbn [cinline cexpr app] in E1. rewrite E1. cbn [rbind nth_error exec_instr t_source lift unwrap length Nat.eqb Nat.add].
  unfold formatted. change (en_default_formatter (ri_engine inner)) with (en_default_formatter e).
  generalize (en_default_formatter e (cow_val c)) as p. intros p. unfold name_err. rewrite rmap_err_id.
  generalize (run_fmt p (fun m => err_format m source (span_or (EBase b)))) as x. intros x.
  induction x as [[[]| | |]|s o IHo er IHe]; cbn [rbind]; try reflexivity; [clearbody inner; clear - Z0; cbn; rewrite Z0; reflexivity|]. now rewrite IHo, IHe.
Qed.
Lemma forget_id (x : rt unit) : rbind x (fun _ => RRet (Ok tt)) = x.
Proof. induction x as [[[]| | |]|s o IHo e IHe]; cbn [rbind]; auto. now rewrite IHo, IHe. Qed.
(** The template compiles, and renders as what the default formatter does with the
    value [v g]. *)
Definition shows (e : engine) (source : str) (v : globals -> option value) : Prop :=
  exists t sp, engine_compile source e = Ok t /\ forall g st x, initial_stack g = Ok st -> v g = Some x ->
    forall fuel, 5 <= fuel -> to_string fuel (template_renderer t e) g = string_result (formatted (en_default_formatter e) x source sp).
Lemma shows_lit e source v sp : engine_compile source e = Ok (mktemplate source (cinline (EBase (BLit v sp)))) -> shows e source (fun _ => Some v).
Proof.
  intros E. eexists. exists (span_or (EBase (BLit v sp))). split; [exact E|]. intros g st x Hg Hv fuel Hf. injection Hv as <-. rewrite (to_string_result _ _ _ _ Hg).
  rewrite (emit_render e source (BLit v sp) fuel st (Owned v) Hf eq_refl), forget_id. reflexivity.
Qed.
End Render.

(** ** Numbers *)
Section Numbers.
Context `{X : Ext}.
Variable e : engine.
Hypothesis He : engine_for default_syntax e.

Definition sign_of (neg : bool) (s : str) : Prop := (s = [] /\ neg = false) \/ (s = s2b "+" /\ neg = false) \/ (s = s2b "-" /\ neg = true).
(** Starts with a digit and continues with characters that can be in numbers. *)
Definition number_text (s : str) : Prop :=
  exists b r, s = b :: r /\ ascii_digit (byte_N b) = true /\ Forall (fun b => number_char (byte_N b) = true) r.
Definition sign_tokens (sign : str) : list (token * str) :=
  match sign with [] => [] | x2d :: _ => [(TMinus, sign)] | _ => [(TPlus, sign)] end.
Definition number_tokens (sign lit : str) : list (token * str) :=
  (TWhitespace, s2b " ") :: sign_tokens sign ++ [(TNumber, lit); (TWhitespace, s2b " ")].
Definition number_source (sign lit : str) : str := s2b "{{ " ++ sign ++ lit ++ s2b " }}".

Lemma number_low s : Forall (fun b => number_char (byte_N b) = true) s -> Forall low s.
Proof.
  apply Forall_impl. intros b H. unfold number_char, ascii_digit, ascii_letter in H. unfold low.
  rewrite !orb_true_iff, !andb_true_iff, !N.leb_le, !N.eqb_eq in H. lia.
Qed.
Lemma digit_number c : ascii_digit c = true -> number_char c = true.
Proof. intros H. unfold number_char. now rewrite H. Qed.
Lemma stops_low pred b r : low b -> pred (byte_N b) = false -> stops pred (b :: r).
Proof.
  intros Hl Hp. unfold stops, chars. pose proof (char_indices_encode (byte_N b) r 0 ltac:(unfold scalar, low in *; lia)) as E.
  rewrite encode_ascii in E by exact Hl. rewrite byte_of_N in E. cbn [app] in E. rewrite E. exact Hp.
Qed.
Lemma sp_run path b l : In b [x22; x2d; x2b] \/ ascii_digit (byte_N b) = true \/ b = x7d -> hd_error (texts l ++ s2b "}}") = Some b ->
  run path l (s2b "}}") -> run path ((TWhitespace, s2b " ") :: l) (s2b "}}").
Proof.
  intros Hb Hh H. apply run_cons; auto.
  - discriminate.
  - now apply asciib_valid.
  - apply nodel_first. cbn. intuition discriminate.
  - split; [discriminate|]. vm_compute. auto.
  - unfold maximal. destruct (texts l ++ s2b "}}") as [|b' r]; [discriminate|]. injection Hh as ->. unfold low, blank, is_ws, ascii_digit in *.
    apply stops_low; unfold low, blank, is_ws; (destruct Hb as [Hb|[Hb| -> ]]; [cbn in Hb; repeat destruct Hb as [<-|Hb]; try reflexivity; destruct Hb|rewrite andb_true_iff, !N.leb_le in Hb; try rewrite orb_false_iff, !N.eqb_neq; lia|reflexivity]).
Qed.
Lemma last_run path : run path [(TWhitespace, s2b " ")] (s2b "}}").
Proof. apply (sp_run path x7d); [auto|reflexivity|constructor]. Qed.
Lemma number_run lit : number_text lit -> run false [(TNumber, lit); (TWhitespace, s2b " ")] (s2b "}}").
Proof.
  intros (b & r & -> & Hd & Hr). assert (Hn : Forall (fun b => number_char (byte_N b) = true) (b :: r)) by (constructor; auto; now apply digit_number).
  pose proof (number_low _ Hn) as Hl. apply run_cons; [discriminate|now apply asciib_valid, low_asciib|..].
  - cbn [app]. apply nodel_first. unfold ascii_digit in Hd. rewrite andb_true_iff, !N.leb_le in Hd. intros Hi.
    cbn in Hi. repeat destruct Hi as [<-|Hi]; cbn in Hd; try lia; try destruct Hi.
  - split; [reflexivity|]. exists (byte_N b), (map byte_N r). split; [now apply low_chars_all|]. split; [exact Hd|]. now apply Forall_map.
  - cbn. apply stops_low; reflexivity.
  - apply last_run.
Qed.
Lemma number_source_tag neg sign lit : sign_of neg sign -> number_source sign lit = tag (number_tokens sign lit).
Proof. intros [[-> _]|[[-> _]|[-> _]]]; unfold number_source, tag, number_tokens, texts;
  [|change (sign_tokens (s2b "+")) with [(TPlus, s2b "+")]|change (sign_tokens (s2b "-")) with [(TMinus, s2b "-")]];
  cbn [sign_tokens app map snd concat]; rewrite <- ?app_assoc; reflexivity. Qed.
Lemma number_tokens_run neg sign lit : sign_of neg sign -> number_text lit -> run false (number_tokens sign lit) (s2b "}}").
Proof.
  intros Hs Hl. pose proof (number_run lit Hl) as Hr. destruct Hl as (b & r & -> & Hd & Hn). destruct Hs as [[-> _]|[[-> _]|[-> _]]]; unfold number_tokens;
    [|change (sign_tokens (s2b "+")) with [(TPlus, s2b "+")]|change (sign_tokens (s2b "-")) with [(TMinus, s2b "-")]]; cbn [sign_tokens app].
  - apply (sp_run false b); auto.
  - apply (sp_run false x2b); [cbn; auto|reflexivity|]. apply run_cons; auto; [discriminate|now apply asciib_valid|..|exact I].
    + apply nodel_first. cbn. intuition discriminate.
    + reflexivity.
  - apply (sp_run false x2d); [cbn; auto|reflexivity|]. apply run_cons; auto; [discriminate|now apply asciib_valid|..|exact I].
    + cbn. apply nodel_minus. unfold ascii_digit in Hd. rewrite andb_true_iff, !N.leb_le in Hd. intros Hi.
      cbn in Hi. repeat destruct Hi as [<-|Hi]; cbn in Hd; try lia; try destruct Hi.
    + reflexivity.
Qed.
(** The tokens of the number and its sign: the text of the number is [lit]. *)
Lemma number_parts neg sign lit : sign_of neg sign -> exists sp,
  txt (tag (number_tokens sign lit)) sp = lit /\
  (forall v, number_lit lit neg v -> exists sp', g_expr (tag (number_tokens sign lit)) (nonspace (lay 2 (number_tokens sign lit))) (EBase (BLit v sp'))) /\
  (forall ex, g_expr (tag (number_tokens sign lit)) (nonspace (lay 2 (number_tokens sign lit))) ex -> exists v, number_lit lit neg v).
Proof.
  intros Hs. pose proof (number_source_tag _ _ lit Hs) as Esrc. set (src := tag (number_tokens sign lit)).
  assert (T : exists sp, txt src sp = lit /\
    nonspace (lay 2 (number_tokens sign lit)) = match sign with [] => [(TNumber, sp)] | _ => [(if neg then TMinus else TPlus, mkspan 3 4); (TNumber, sp)] end).
  { destruct Hs as [[-> ->]|[[-> ->]|[-> ->]]]; eexists; (split; [|reflexivity]); unfold txt, src; rewrite <- Esrc; unfold number_source; cbn [sp_m sp_n].
    - exact (sub_mid (s2b "{{ ") lit (s2b " }}")).
    - exact (sub_mid (s2b "{{ +") lit (s2b " }}")).
    - exact (sub_mid (s2b "{{ -") lit (s2b " }}")). }
  destruct T as (sp & Et & ->). clear Esrc. clearbody src. exists sp. split; [exact Et|]. rewrite <- Et. split.
  - intros v Hv. destruct Hs as [[-> ->]|[[-> ->]|[-> ->]]]; eexists; apply ge_base; [now apply gb_num|now apply gb_plus|now apply gb_minus].
  - intros ex Hx. destruct Hs as [[-> ->]|[[-> ->]|[-> ->]]]; cbn in Hx.
    + inversion Hx as [? b Hb|ts e0 p n H E|ts e0 p n c ts' bs H _ E]; subst.
      * inversion Hb; subst; eauto.
      * destruct ts as [|? [|? ?]]; discriminate E.
      * destruct ts as [|? [|? ?]]; discriminate E.
    + inversion Hx as [? b Hb|ts e0 p n H E|ts e0 p n c ts' bs H _ E]; subst.
      * inversion Hb; subst; eauto.
      * destruct ts as [|? [|? [|? ?]]]; discriminate E.
      * destruct ts as [|? [|? [|? ?]]]; discriminate E.
    + inversion Hx as [? b Hb|ts e0 p n H E|ts e0 p n c ts' bs H _ E]; subst.
      * inversion Hb; subst; eauto.
      * destruct ts as [|? [|? [|? ?]]]; discriminate E.
      * destruct ts as [|? [|? [|? ?]]]; discriminate E.
Qed.
Theorem number_shows neg sign lit v : sign_of neg sign -> number_text lit -> number_lit lit neg v -> shows e (number_source sign lit) (fun _ => Some v).
Proof.
  intros Hs Ht Hv. rewrite (number_source_tag _ _ _ Hs). destruct (number_parts _ _ lit Hs) as (sp & _ & H & _). destruct (H v Hv) as (sp' & Hg).
  apply (shows_lit e _ v sp'). apply tag_compiles; auto. eapply number_tokens_run; eauto.
Qed.
Theorem number_only neg sign lit t : sign_of neg sign -> number_text lit -> engine_compile (number_source sign lit) e = Ok t -> exists v, number_lit lit neg v.
Proof.
  intros Hs Ht Ec. rewrite (number_source_tag _ _ _ Hs) in Ec. destruct (number_parts _ _ lit Hs) as (sp & _ & _ & H).
  apply tag_rejects in Ec as (ex & Hx); auto; [eapply H; eauto|]. eapply number_tokens_run; eauto.
Qed.
End Numbers.

(** ** Strings *)
From Verif Require Import LiteralSpec.
Section Strings.
Context `{X : Ext}.
Variable e : engine.
Hypothesis He : engine_for default_syntax e.
Lemma spells_scalar cs0 s0 : spells cs0 s0 -> Forall scalar cs0.
Proof. induction 1; repeat (constructor; [try (unfold scalar; lia); auto|]); auto. Qed.
Lemma spells_unescaped cs0 s0 : spells cs0 s0 -> unescaped cs0 s0.
Proof. induction 1; try (constructor; auto; fail). apply ue_char; auto; intros ->; apply H0; cbn; auto. Qed.
Lemma spells_body cs0 s0 : spells cs0 s0 -> (forall pre, cs0 <> pre ++ [92; 92]%N) -> forall prev, (cs0 = [] -> prev <> 92%N) -> str_body_ok prev cs0.
Proof.
  induction 1 as [|c cs0 s0 Hc Hn H IH|cs0 s0 H IH|cs0 s0 H IH|cs0 s0 H IH|cs0 s0 H IH|cs0 s0 H IH]; intros Hl prev Hp; cbn [str_body_ok]; auto.
  1:{ assert (H1 : c <> 10%N /\ c <> 13%N /\ c <> 34%N /\ c <> 92%N) by (repeat split; intros ->; apply Hn; cbn; auto).
      split; [unfold str_char_ok; intuition|]. apply IH; [|tauto]. intros pre ->. now apply (Hl (c :: pre)). }
  all: assert (Hl' : forall pre, cs0 <> pre ++ [92; 92]%N) by (intros pre ->; eapply (Hl (_ :: _ :: pre)); reflexivity).
  all: (split; [unfold str_char_ok; repeat split; intros; try discriminate; auto|]); (split; [unfold str_char_ok; repeat split; intros; try discriminate; auto|]).
  all: apply IH; auto; try (intros; discriminate).
  intros ->. exfalso. now apply (Hl []).
Qed.
Variable cs : list N.
Variable out : str.
Hypothesis Hcs : spells cs out.
Hypothesis Hlast : forall pre, cs <> pre ++ [92; 92]%N.

Definition string_tokens : list (token * str) := [(TWhitespace, s2b " "); (TString, quoted cs); (TWhitespace, s2b " ")].
Definition string_source : str := s2b "{{ " ++ quoted cs ++ s2b " }}".
Lemma quoted_chars : chars (quoted cs) = (34 :: cs ++ [34])%N /\ valid_utf8 (quoted cs).
Proof using Hcs. clear Hlast.
  pose proof (spells_scalar _ _ Hcs) as Hs.
  assert (E : quoted cs = flat_map encode (34 :: cs ++ [34])%N) by (unfold quoted; cbn [flat_map]; now rewrite flat_map_app).
  assert (F : Forall scalar (34 :: cs ++ [34])%N) by (constructor; [unfold scalar; lia|]; apply Forall_app; split; auto; constructor; [unfold scalar; lia|constructor]).
  rewrite E. split; [now apply chars_flat_map|]. exists (34 :: cs ++ [34])%N. auto.
Qed.
Lemma string_source_tag : string_source = tag string_tokens.
Proof. unfold string_source, tag, string_tokens, texts. cbn [map snd concat]. rewrite <- !app_assoc. reflexivity. Qed.
Lemma string_run : run false string_tokens (s2b "}}").
Proof.
  destruct quoted_chars as (Ec & V). unfold string_tokens. apply (sp_run false x22); [cbn; auto|reflexivity|]. apply run_cons; auto.
  - discriminate.
  - apply nodel_first. cbn. intuition discriminate.
  - exists cs. split; [exact Ec|]. apply (spells_body _ _ Hcs Hlast). discriminate.
  - exact I.
  - apply last_run.
Qed.
Theorem string_shows : shows e string_source (fun _ => Some (VStr out)).
Proof.
  rewrite string_source_tag. eapply shows_lit. apply tag_compiles; auto using string_run.
  cbn [string_tokens lay nonspace List.filter is_space fst negb]. apply ge_base. apply gb_str.
  exists cs. split; [|now apply spells_unescaped]. rewrite <- (proj1 quoted_chars). f_equal. rewrite <- string_source_tag. unfold txt, string_source. cbn [sp_m sp_n].
  exact (sub_mid (s2b "{{ ") (quoted cs) (s2b " }}")).
Qed.
End Strings.

(** ** Indices *)
Section Indices.
Context `{X : Ext}.
Hypothesis HX : ext_ascii X.
Variable e : engine.
Hypothesis He : engine_for default_syntax e.
Variable name : str.
Hypothesis Hv : valid_utf8 name.
Hypothesis Hi : ident_shape name.
Hypothesis Hk : ~ In name reserved.
Variable lit : str.
Hypothesis Hlit : lit <> [] /\ Forall (fun b => ascii_digit (byte_N b) = true) lit.

Definition index_tokens : list (token * str) :=
  [(TWhitespace, s2b " "); (TIdent, name); (TDot, s2b "."); (TIndex, lit); (TWhitespace, s2b " ")].
Definition index_source : str := s2b "{{ " ++ name ++ s2b "." ++ lit ++ s2b " }}".
Lemma index_source_tag : index_source = tag index_tokens.
Proof. unfold index_source, tag, index_tokens, texts. cbn [map snd concat]. rewrite <- !app_assoc. reflexivity. Qed.
Lemma lit_low : Forall low lit.
Proof. destruct Hlit as (_ & H). apply number_low. revert H. apply Forall_impl. intros b. apply digit_number. Qed.
Lemma first_low b r : low b -> exists t, chars (b :: r) = byte_N b :: t.
Proof.
  intros Hl. unfold chars. pose proof (char_indices_encode (byte_N b) r 0 ltac:(unfold scalar, low in *; lia)) as E.
  rewrite encode_ascii in E by exact Hl. rewrite byte_of_N in E. cbn [app] in E. rewrite E. cbn. eauto.
Qed.
Lemma name_nodel r : nodel (name ++ r).
Proof.
  destruct Hi as (c & t & Ec & (Hs & Hd & Hw & Ho) & _). destruct name as [|b n] eqn:En; [discriminate Ec|]. cbn [app]. apply nodel_first. intros Hb.
  assert (Hl : low b) by (cbn in Hb; repeat destruct Hb as [<-|Hb]; try reflexivity; destruct Hb).
  destruct (first_low b n Hl) as (t' & Et). rewrite Et in Ec. injection Ec as <- <-.
  unfold word_start in Hs. apply orb_prop in Hs as [Hs|Hs].
  - apply N.eqb_eq in Hs. clear - Hb Hs. cbn in Hb. repeat destruct Hb as [<-|Hb]; try discriminate Hs. destruct Hb.
  - destruct HX as (_ & H & _). pose proof (H _ Hl Hs) as H1. clear - Hb H1. cbn in Hb. repeat destruct Hb as [<-|Hb]; try discriminate H1. destruct Hb.
Qed.
Lemma digit_low_first b : ascii_digit (byte_N b) = true -> low b /\ ~ In b [x7b; x7d; x25; x23; x2d].
Proof.
  intros H. unfold low, ascii_digit in *. rewrite andb_true_iff, !N.leb_le in H. split; [lia|]. intros Hb. cbn in Hb. repeat destruct Hb as [<-|Hb]; cbn in H; try lia; try destruct Hb.
Qed.
Lemma index_run : run false index_tokens (s2b "}}").
Proof.
  assert (Vl : valid_utf8 lit) by (apply asciib_valid, low_asciib, lit_low).
  assert (Vn : name <> []) by (intros ->; destruct Hi as (? & ? & ? & _); discriminate).
  assert (Vrest : forall s, asciib s = true -> valid_utf8 s) by exact asciib_valid.
  unfold index_tokens. apply run_cons; [discriminate|now apply asciib_valid|..].
  - apply nodel_first. cbn. intuition discriminate.
  - split; [discriminate|]. vm_compute. auto.
  - unfold maximal, stops, texts. cbn [map snd concat]. rewrite <- app_assoc. rewrite chars_app; auto.
    + destruct Hi as (c & t & -> & (_ & _ & Hw & _) & _). exact Hw.
    + repeat (apply valid_app; auto).
  - cbn [after_tok]. apply run_cons; auto; [apply name_nodel|now split|..].
    + unfold maximal. unfold texts. cbn [map snd concat]. rewrite <- app_assoc. change (s2b "." ++ ?r) with (x2e :: r). apply stops_low; [reflexivity|].
      unfold word_char. destruct HX as (_ & _ & H). rewrite H by reflexivity. reflexivity.
    + apply run_cons; [discriminate|now apply asciib_valid|..|reflexivity|exact I|].
      * apply nodel_first. cbn. intuition discriminate.
      * destruct Hlit as (Hne & Hd). apply run_cons; auto; [|split; [reflexivity|]; split; [exact Hne|]| |apply last_run].
        -- destruct lit as [|b r]; [now destruct Hne|]. cbn [app]. apply nodel_first. inversion Hd; subst. now apply digit_low_first.
        -- rewrite low_chars_all by apply lit_low. now apply Forall_map.
        -- apply stops_low; reflexivity.
Qed.
Lemma index_parts : exists s1 s2 s3,
  nonspace (lay 2 index_tokens) = [(TIdent, s1); (TDot, s2); (TIndex, s3)] /\
  s1 = mkspan 3 (3 + length name) /\ txt index_source s3 = lit.
Proof.
  do 3 eexists. split; [reflexivity|]. split; [reflexivity|]. unfold txt. cbn [sp_m sp_n].
  unfold index_source. replace (s2b "{{ " ++ name ++ s2b "." ++ lit ++ s2b " }}") with ((s2b "{{ " ++ name ++ s2b ".") ++ lit ++ s2b " }}") by (now rewrite <- !app_assoc).
  replace (2 + length (s2b " ") + length name + length (s2b ".")) with (length (s2b "{{ " ++ name ++ s2b ".")); [apply sub_mid|].
  rewrite !app_length. change (length (s2b "{{ ")) with 3. change (length (s2b " ")) with 1. lia.
Qed.
Lemma index_name : @index_span error index_source (mkspan 3 (3 + length name)) = Ok name.
Proof.
  unfold index_span. cbn [sp_m sp_n]. rewrite slice_Ok.
  - f_equal. exact (sub_mid (s2b "{{ ") name _).
  - lia.
  - unfold index_source. exact (boundary_app (s2b "{{ ") (name ++ s2b "." ++ lit ++ s2b " }}") ltac:(apply valid_app; auto; apply valid_app; [now apply asciib_valid|]; apply valid_app; [apply asciib_valid, low_asciib, lit_low|now apply asciib_valid])).
  - unfold index_source. rewrite app_assoc. change 3 with (length (s2b "{{ ")) at 1. rewrite <- app_length. apply boundary_app.
    apply valid_app; [now apply asciib_valid|]. apply valid_app; [apply asciib_valid, low_asciib, lit_low|now apply asciib_valid].
Qed.
Theorem index_shows n : index_lit lit n -> shows e index_source (item name n).
Proof.
  intros Hn. destruct index_parts as (s1 & s2 & s3 & Ep & Es1 & Et). rewrite <- Et in Hn.
  set (v := [mkmember Direct (AKey (mkident s1)) s1; mkmember Direct (AIndex n s3) (span_of ((TDot, s2) :: [(TIndex, s3)]))]).
  assert (Ec : engine_compile index_source e = Ok (mktemplate index_source (cinline (EBase (BVar v))))).
  { rewrite index_source_tag. apply tag_compiles; auto using index_run. rewrite Ep. apply ge_base. apply gb_var.
    refine (gm_dot _ s2 [(TIndex, s3)] (AIndex n s3) [] [] _ (gm_nil _)). apply ga_index. now rewrite <- index_source_tag. }
  exists (mktemplate index_source (cinline (EBase (BVar v)))), (span_or (EBase (BVar v))). split; [exact Ec|]. intros g st x Hg Hx fuel Hf.
  rewrite (to_string_result _ _ _ _ Hg).
  assert (El : exists c, lookup_var st index_source v = Ok c /\ cow_val c = x).
  { assert (Hm : forall m l, map_get name m = Some (VList l) -> nth_error l (N.to_nat n) = Some x -> lookup_var [FrScope (Borrowed (VMap m))] index_source v = Ok (Borrowed x)).
    { intros m l Hm Hl. cbn [lookup_var]. unfold lookup_path_maybe. cbn [is_owned cow_val]. unfold v. cbn [lookup_path_maybe_loop]. unfold lookup at 1. cbn [mb_access id_span mb_op].
      rewrite Es1, index_name. cbn [bind]. rewrite Hm. cbn [lookup mb_access]. unfold list_get.
      replace (n <? N.of_nat (length l))%N with true; [rewrite Hl; reflexivity|]. symmetry. apply N.ltb_lt.
      assert (N.to_nat n < length l) by (apply nth_error_Some; congruence). lia. }
    destruct g as [[gv| | |]|gv|f]; cbn in Hg; try discriminate Hg; injection Hg as <-; cbn [item] in Hx.
    1,2: destruct gv; try discriminate Hx; match type of Hx with context [map_get ?a ?b] => destruct (map_get a b) as [[]|] eqn:Em end; try discriminate Hx; eexists; (split; [eapply Hm; eauto|reflexivity]).
    cbn [lookup_var]. assert (Ev : value_path index_source v = Ok [mkvmember Direct (VAKey name); mkvmember Direct (VAIndex n)]).
    { unfold v, value_path. cbn. rewrite Es1, index_name. reflexivity. }
    rewrite Ev. cbn [bind]. destruct (f _) as [y|]; [|discriminate Hx]. injection Hx as ->. eauto. }
  destruct El as (c & El & Ex). rewrite (emit_render e index_source (BVar v) fuel st c Hf El), forget_id, Ex. reflexivity.
Qed.
Theorem index_only t : engine_compile index_source e = Ok t -> exists n, index_lit lit n.
Proof.
  intros Ec. rewrite index_source_tag in Ec. apply tag_rejects in Ec as (ex & Hx); auto using index_run.
  destruct index_parts as (s1 & s2 & s3 & Ep & Es1 & Et). rewrite <- index_source_tag, Ep in Hx. rewrite <- Et.
  inversion Hx as [? b Hb|ts e0 p n H E|ts e0 p n c ts' bs H _ E]; subst.
  - inversion Hb as [sp ts ms Hm| | | | | |]; subst. inversion Hm as [|sp ts a ts' ms' Ha Hm' E|sp ts a ts' ms' Ha Hm' E]; subst.
    inversion Ha as [sp' v Hlv|sp']; subst; try discriminate; match goal with H : _ = [(TIndex, _)] |- _ => injection H as <- | H : [(TIndex, _)] = _ |- _ => injection H as <- | _ => idtac end; eauto.
  - destruct ts as [|? [|? [|? [|? ?]]]]; discriminate E.
  - destruct ts as [|? [|? [|? [|? ?]]]]; discriminate E.
Qed.
End Indices.
