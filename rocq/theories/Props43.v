(** Property theorems: what [{:?}] and [unwrap] show of an error (C71). *)
From Verif Require Import Base Utf8 Ext Errors Syntax AhoCorasick SearchSpec SyntaxSpec Value Ast Lexer LexSpec
  GrammarSpec LayoutSpec BlameSpec Parser Compiler CompileProof Fmt Stack Filters Render Engine EngineSpec LocSpec LocProof DecimalSpec DecimalProof MessageSpec
  RenderSpec RenderProof RenderErr RenderMain RenderObs Props2 Props3 Props9 Demo Props15 Props16 DebugSpec Debug DebugProof Validity.

(** What is assumed of [Debug] of an io error: one line, and its end can be told. *)
Definition io_plain (io : N -> str) : Prop :=
  (forall code, one_line (io code)) /\
  forall code code' r r', io code ++ s2b ")" ++ r = io code' ++ s2b ")" ++ r' -> code = code' /\ r = r'.

(** ** The fields *)
Lemma piece_one_line c p : piece c p -> one_line p.
Proof.
  intros [c' Hc H1 H2 H3 H4|x c' Hx|h c' Hc Hn Hh].
  - intros K. destruct (plain_first c' Hc H1 H2 H3) as (b & bs & Eb & _ & _ & Nb). destruct (encode_shape c' Hc) as (b' & bs' & Eb' & _ & F).
    rewrite Eb in Eb'. inversion Eb'; subst b' bs'. rewrite Eb in K. destruct K as [K|K]; [now apply Nb|]. rewrite Forall_forall in F. specialize (F _ K). discriminate F.
  - intros [K|[K|[]]]; [discriminate K|]. subst x. repeat (destruct Hx as [E|Hx]; [discriminate E|]). destruct Hx.
  - repeat apply ol_app.
    + intros K. repeat (destruct K as [K|K]; [discriminate K|]). destruct K.
    + intros K. pose proof (hex_is _ _ _ Hh) as F. rewrite Forall_forall in F. destruct (F _ K) as [v Hv]. unfold hex_digit in Hv. cbn in Hv. lia.
    + intros K. repeat (destruct K as [K|K]; [discriminate K|]). destruct K.
Qed.
Lemma reads_one_line q s : reads q s -> one_line q.
Proof.
  revert s. induction q as [q IH] using (well_founded_induction (Wf_nat.well_founded_ltof _ (@length byte))). intros s H.
  apply reads_inv in H as [[-> ->]|(c & p & q1 & s1 & Hp & -> & -> & Hr)]; [intros []|].
  apply ol_app; [exact (piece_one_line _ _ Hp)|]. apply (IH q1) with s1; [|exact Hr].
  unfold Wf_nat.ltof. rewrite app_length. destruct (piece_first c p [] Hp) as [_ K]. destruct p; [now elim K|cbn; lia].
Qed.
Ltac one := let K := fresh in intros K; repeat (destruct K as [K|K]; [discriminate K|]); destruct K.
Lemma text_one_line o d : shown_text o d -> one_line d.
Proof. intros [|s q H]; repeat apply ol_app; try one. now apply reads_one_line in H. Qed.
Lemma natural_one_line n s : natural n s -> one_line s.
Proof. intros (_ & F & _) K. rewrite Forall_forall in F. specialize (F _ K). vm_compute in F. destruct F as [F _]. now apply F. Qed.
Lemma place_one_line o d : shown_place o d -> one_line d.
Proof.
  intros [|p ln col w q H1 H2 H3 H4]; repeat apply ol_app; try one; try (eapply natural_one_line; eassumption). now apply reads_one_line in H4.
Qed.
Lemma shown_one_line io e d : io_plain io -> shown_error io e d -> one_line d.
Proof.
  intros [Hio _] (k & n & r & p & Hk & Hn & Hr & Hp & ->). apply text_one_line in Hn, Hr. apply place_one_line in Hp.
  repeat apply ol_app; try one; auto. destruct Hk; try one. repeat apply ol_app; try one; auto.
Qed.

Lemma text_prefix o d o' d' r r' : shown_text o d -> shown_text o' d' -> d ++ r = d' ++ r' -> o = o' /\ r = r'.
Proof.
  intros [|s q H] [|s' q' H'] E; try discriminate E.
  - apply app_inv_head in E. now split.
  - rewrite <- !app_assoc in E. apply app_inv_head in E. cbn [app] in E. inversion E as [E'].
    destruct (reads_prefix _ _ H _ _ _ _ H' E') as [-> K]. inversion K. now split.
Qed.
Lemma natural_prefix n s n' s' x x' r r' : natural n s -> natural n' s' -> ~ decimal_digit x -> ~ decimal_digit x' -> s ++ x :: r = s' ++ x' :: r' -> n = n' /\ x :: r = x' :: r'.
Proof.
  intros (_ & F & _ & V) (_ & F' & _ & V') Hx Hx' E. destruct (split_at decimal_digit _ _ _ _ _ _ F F' Hx Hx' E) as [-> K]. split; [congruence|exact K].
Qed.
Lemma comma_not_digit : ~ decimal_digit x2c.
Proof. unfold decimal_digit. cbn. lia. Qed.
Lemma place_prefix o d o' d' r r' : shown_place o d -> shown_place o' d' -> d ++ r = d' ++ r' -> o = o' /\ r = r'.
Proof.
  intros [|p ln col w q H1 H2 H3 H4] [|p' ln' col' w' q' H1' H2' H3' H4'] E; try discriminate E.
  - apply app_inv_head in E. now split.
  - rewrite <- !app_assoc in E. apply app_inv_head in E. cbn [s2b app String.list_byte_of_string map] in E.
    destruct (natural_prefix _ _ _ _ _ _ _ _ H1 H1' comma_not_digit comma_not_digit E) as [E1 E']. clear E. inversion E' as [E]. clear E'.
    destruct (natural_prefix _ _ _ _ _ _ _ _ H2 H2' comma_not_digit comma_not_digit E) as [E2 E']. clear E. inversion E' as [E]. clear E'.
    destruct (natural_prefix _ _ _ _ _ _ _ _ H3 H3' comma_not_digit comma_not_digit E) as [E3 E']. clear E. inversion E' as [E]. clear E'.
    destruct (reads_prefix _ _ H4 _ _ _ _ H4' E) as [E4 E']. inversion E'. split; [|reflexivity].
    apply Nat2N.inj in E1, E2, E3. destruct p, p'. cbn in *. congruence.
Qed.
Lemma kind_prefix io k d k' d' r r' : io_plain io -> shown_kind io k d -> shown_kind io k' d' -> d ++ s2b ", name: " ++ r = d' ++ s2b ", name: " ++ r' -> k = k' /\ r = r'.
Proof.
  intros [_ Hio] H H' E. destruct H, H'; try discriminate E; try (apply app_inv_head in E; apply app_inv_head in E; now split).
  rewrite <- !app_assoc in E. apply app_inv_head in E. apply Hio in E as [-> E]. apply app_inv_head in E. now split.
Qed.

(** C71.  The fields shown tell the error: two errors that show the same are the same. *)
Theorem C71_fields_tell io e e' d : io_plain io -> shown_error io e d -> shown_error io e' d -> e = e'.
Proof.
  intros Hio (k & n & r & p & Hk & Hn & Hr & Hp & ->) (k' & n' & r' & p' & Hk' & Hn' & Hr' & Hp' & E).
  apply app_inv_head in E. apply (kind_prefix io _ _ _ _ _ _ Hio Hk Hk') in E as [E1 E].
  apply (text_prefix _ _ _ _ _ _ Hn Hn') in E as [E2 E]. apply app_inv_head in E.
  apply (text_prefix _ _ _ _ _ _ Hr Hr') in E as [E3 E]. apply app_inv_head in E.
  apply (place_prefix _ _ _ _ _ _ Hp Hp') in E as [E4 E]. destruct e, e'. cbn in *. congruence.
Qed.

Section C71.
Context `{X : Ext}.
Variable printable : N -> bool.
Variable io : N -> str.
(** C71.  The debug form is the long form (C43), then one line with all fields. *)
Theorem C71_debug e : io_plain io -> texts_valid e ->
  exists d, debug_error printable io e = display_error_alt e ++ [x0a] ++ d /\ shown_error io e d /\ one_line d.
Proof.
  intros Hio He. exists (debug_fields printable io e). split; [reflexivity|]. pose proof (debug_shown printable io e He) as H.
  split; [exact H|]. exact (shown_one_line _ _ _ Hio H).
Qed.
Lemma lines_app a b : lines_of (a ++ x0a :: b) = lines_of a ++ lines_of b.
Proof.
  induction a as [|c a IH]; [reflexivity|]. cbn [lines_of app]. rewrite IH. destruct (byte_eqb c x0a); [reflexivity|].
  destruct (lines_of a) as [|l ls] eqn:E; [|reflexivity]. exfalso. destruct a; cbn in E; [discriminate E|]. destruct (byte_eqb b0 x0a); [discriminate E|]. destruct (lines_of a); discriminate E.
Qed.
(** C71.  So it points at whatever the long form points at (C43 says at what). *)
Theorem C71_points e kind name ln col text from to :
  points_at (display_error_alt e) kind name ln col text from to -> points_at (debug_error printable io e) kind name ln col text from to.
Proof.
  intros (a & num & c & bar & gutter & marks & rest & E & H). exists a, num, c, bar, gutter, marks, (rest ++ lines_of (debug_fields printable io e)).
  split; [|exact H]. unfold debug_error, nl. change ([x0a] ++ debug_fields printable io e) with (x0a :: debug_fields printable io e). rewrite lines_app, E. reflexivity.
Qed.
Lemma last_line a d : one_line d -> last (lines_of (a ++ [x0a] ++ d)) [] = d.
Proof.
  intros H. change ([x0a] ++ d) with (x0a :: d). rewrite lines_app, (lines_one _ H). apply last_last.
Qed.
(** C71.  Nothing is lost: errors with the same debug form are the same. *)
Theorem C71_tells e e' : io_plain io -> texts_valid e -> texts_valid e' ->
  debug_error printable io e = debug_error printable io e' -> e = e'.
Proof.
  intros Hio He He' E. destruct (C71_debug e Hio He) as (d & E1 & Hd & Ho). destruct (C71_debug e' Hio He') as (d' & E1' & Hd' & Ho').
  assert (d = d') as <-. { rewrite <- (last_line (display_error_alt e) d Ho), <- (last_line (display_error_alt e') d' Ho'). congruence. }
  exact (C71_fields_tell io e e' d Hio Hd Hd').
Qed.
(** C71.  The texts of an error of the compiler are Unicode: no character is cut.  (In Rust
    all texts are; here it has to be shown.) *)
Theorem C71_compile e source err : valid_utf8 source -> engine_compile source e = Err err -> texts_valid err.
Proof. intros Hs H. pose proof (sy_compile (en_searcher e) source Hs) as K. unfold engine_compile in H. now rewrite H in K. Qed.
Theorem C71_add e name source e' err : valid_utf8 source -> valid_utf8 name -> add_template name source e = (e', Err err) -> texts_valid err.
Proof.
  intros Hs Hn H. unfold add_template in H. destruct (engine_compile source e) as [t|er| |] eqn:E; inversion H; subst.
  destruct (C71_compile _ _ _ Hs E) as (H1 & H2 & H3). unfold with_template_name. destruct (e_name er) as [n|] eqn:En.
  - split; [intros y Hy; apply H1; congruence|split; assumption].
  - split; [|split; assumption]. intros y Hy. inversion Hy. now subst.
Qed.
(** C71.  What [unwrap] shows of a syntax error: the line of the place that is to blame,
    marked; the reason; on the last line the reason and the place again, quoted. *)
Theorem C71_syntax_error (sx : syntax) e source err :
  user_syntax sx -> trims_ok sx source -> engine_for sx e -> valid_utf8 source -> digits_narrow -> one_column_per_byte source -> io_plain io ->
  engine_compile source e = Err err ->
  exists sp why d, blame sx source sp why /\ e_reason err = Some why /\
    (exists before, debug_error printable io err = before ++ s2b "reason: " ++ why ++ [x0a] ++ [x0a] ++ d) /\ shown_error io err d /\ one_line d /\
    (~ past_last_line source (sp_m sp) ->
     exists before text after, line_at source before text after /\ length before <= sp_m sp <= length before + length text /\
       (sp_n sp <= length before + length text ->
        points_at (debug_error printable io err) (s2b "invalid syntax") (s2b "<anonymous>")
          (N.of_nat (newlines before + 1)) (N.of_nat (sp_m sp - length before + 1)) text
          (sp_m sp - length before) (Nat.max (sp_m sp + 1) (sp_n sp) - length before))).
Proof.
  intros Hu Ht He Hv Hd Ho Hio E. destruct (C43_syntax_error sx e source err Hu Ht He Hv Hd Ho E) as (sp & why & Bl & Hs & (before & Ha) & Hp).
  destruct (C71_debug err Hio (C71_compile _ _ _ Hv E)) as (d & Ed & Hf & Hl). exists sp, why, d. split; [exact Bl|]. split.
  { destruct (C44_reason sx e source err Hu Ht He Hv E) as (sp' & why' & p & -> & _ & _). rewrite C43_short in Hs. cbn [e_reason e_kind] in *.
    change (s2b "invalid syntax: " ++ why) with (s2b "invalid syntax" ++ s2b ": " ++ why) in Hs.
    change (kind_text KSyntax) with (s2b "invalid syntax") in Hs. apply app_inv_head in Hs. apply app_inv_head in Hs. congruence. }
  split; [exists before; rewrite Ed, Ha, <- !app_assoc; reflexivity|]. split; [exact Hf|]. split; [exact Hl|].
  intros K. destruct (Hp K) as (b & t & a & H1 & H2 & H3). exists b, t, a. split; [exact H1|]. split; [exact H2|]. intros Hn. apply C71_points. exact (H3 Hn).
Qed.
(** C71.  And of an error of a rendering. *)
Theorem C71_render_error inner origin ast_of g st err reason p :
  statements inner origin ast_of -> initial_stack g = Ok st ->
  renders inner g (Err err) \/ (exists k w w', writes inner g k w (w', Err err) /\ forall c, err <> mk_io_error c) ->
  err <> depth_error inner -> e_reason err = Some reason -> e_pretty err = Some p -> digits_narrow -> io_plain io -> texts_valid err ->
  exists t n sp d, nested inner ast_of (ri_template inner) (ri_template_name inner) t n /\
    debug_error printable io err = display_error_alt err ++ [x0a] ++ d /\ shown_error io err d /\ one_line d /\
    (one_column_per_byte (t_source t) -> ~ past_last_line (t_source t) (sp_m sp) -> (forall s, n = Some s -> one_line s) ->
     exists before text after, line_at (t_source t) before text after /\ length before <= sp_m sp <= length before + length text /\
       (sp_n sp <= length before + length text ->
        points_at (debug_error printable io err) (kind_text (e_kind err)) (match n with Some s => s | None => s2b "<anonymous>" end)
          (N.of_nat (newlines before + 1)) (N.of_nat (sp_m sp - length before + 1)) text
          (sp_m sp - length before) (Nat.max (sp_m sp + 1) (sp_n sp) - length before))).
Proof.
  intros Hs Hg Hr Hd Er Ep Hw Hio Hv. destruct (C43_render_error inner origin ast_of g st err reason p Hs Hg Hr Hd Er Ep Hw) as (t & n & sp & Hn & H).
  destruct (C71_debug err Hio Hv) as (d & Ed & Hf & Hl). exists t, n, sp, d. split; [exact Hn|]. split; [exact Ed|]. split; [exact Hf|]. split; [exact Hl|].
  intros Ho Hp Hone. destruct (H Ho Hp Hone) as (b & tx & a & H1 & H2 & H3). exists b, tx, a. split; [exact H1|]. split; [exact H2|]. intros K. apply C71_points. exact (H3 K).
Qed.
End C71.
Print Assumptions C71_render_error.
Print Assumptions C71_syntax_error.
Print Assumptions C71_compile.
Print Assumptions C71_add.
Print Assumptions C71_fields_tell.
Print Assumptions C71_debug.
Print Assumptions C71_points.
Print Assumptions C71_tells.

Local Existing Instance ascii_ext.
(** Beside them: an io error shown as its number is plain. *)
Definition io_number (code : N) : str := s2b "code " ++ show_N code.
Lemma brace_not_digit : ~ decimal_digit x29.
Proof. unfold decimal_digit. cbn. lia. Qed.
Lemma io_number_plain : io_plain io_number.
Proof.
  split.
  - intros code. apply ol_app; [one|]. exact (natural_one_line _ _ (show_natural code)).
  - intros code code' r r' E. unfold io_number in E. rewrite <- !app_assoc in E. apply app_inv_head in E.
    destruct (natural_prefix _ _ _ _ _ _ _ _ (show_natural code) (show_natural code') brace_not_digit brace_not_digit E) as [E1 E2]. inversion E2. now split.
Qed.
(** Quotes, backslashes, line breaks, unprintable characters (here U+200B), others (é). *)
Definition only_accents (c : N) : bool := (c <? 0x2000)%N.
Example quoted_case : debug_str only_accents (s2b "a\b" ++ [x22; x0a; x00; x7f] ++ encode 0x200b ++ encode 233) =
  [x22] ++ s2b "a\\b\" ++ [x22] ++ s2b "\n\0\u{7f}\u{200b}" ++ encode 233 ++ [x22].
Proof. vm_compute. reflexivity. Qed.
(** The error of C43_case: what [unwrap] shows of it. *)
Definition quote (s : string) : str := [x22] ++ s2b s ++ [x22].
Example C71_case : exists err, engine_compile bad_source demo_engine = Err err /\ texts_valid err /\
  debug_error only_accents io_number err = text
      ["invalid syntax"; "";
       "  --> <anonymous>:2:9";
       "   |";
       " 2 |   {{ a. }}";
       "   |         ^^-";
       "   |";
       "   = reason: expected identifier or index, found end expression"; ""]%string ++
    s2b "Error { kind: Syntax, name: None, reason: Some(" ++ quote "expected identifier or index, found end expression" ++
    s2b "), pretty: Some(Pretty { ln: 1, col: 8, width: 2, text: " ++ quote "  {{ a. }}" ++ s2b " }) }".
Proof.
  eexists. split; [vm_compute; reflexivity|]. split; [|vm_compute; reflexivity].
  split; [|split]; intros s E; inversion E; apply asciib_valid; vm_compute; reflexivity.
Qed.
(** An io error has no reason and no place: one line of each form. *)
Example C71_io : debug_error only_accents io_number (mk_io_error 5) = s2b "io error" ++ [x0a] ++ s2b "Error { kind: Io(code 5), name: None, reason: None, pretty: None }" /\
  texts_valid (mk_io_error 5).
Proof. split; [vm_compute; reflexivity|]. repeat split; discriminate. Qed.
(** Without the escape the fields would not tell: a name that looks like a reason. *)
Example C71_no_escape :
  let show (o : option str) := match o with None => s2b "None" | Some s => s2b "Some(" ++ [x22] ++ s ++ [x22] ++ s2b ")" end in
  let fields (n r : option str) := s2b "name: " ++ show n ++ s2b ", reason: " ++ show r in
  fields (Some (s2b "a" ++ [x22] ++ s2b "), reason: Some(" ++ [x22])) None <> fields (Some (s2b "a")) (Some []) /\
  fields (Some (s2b "a" ++ [x22] ++ s2b "), reason: Some(" ++ [x22] ++ s2b "b")) (Some (s2b "c")) =
  fields (Some (s2b "a")) (Some (s2b "b" ++ [x22] ++ s2b "), reason: Some(" ++ [x22] ++ s2b "c")).
Proof. split; [vm_compute; discriminate|vm_compute; reflexivity]. Qed.
(** A source with characters beyond ASCII in the line that is shown. *)
Definition accents : str := s2b "ok" ++ [x0a] ++ encode 233 ++ s2b " {{ a. }} " ++ encode 0x200b ++ [x0a].
Example C71_compile_case : valid_utf8 accents /\ exists err p, engine_compile accents demo_engine = Err err /\ e_pretty err = Some p /\
  p_text p = encode 233 ++ s2b " {{ a. }} " ++ encode 0x200b /\ texts_valid err.
Proof.
  assert (V : valid_utf8 accents).
  { unfold accents. repeat apply valid_app; try (apply asciib_valid; reflexivity); apply valid_encode; apply scalarb_spec; reflexivity. }
  split; [exact V|]. do 2 eexists. split; [vm_compute; reflexivity|]. split; [reflexivity|]. split; [vm_compute; reflexivity|].
  eapply (C71_compile demo_engine _ _ V). vm_compute. reflexivity.
Qed.
(** The case above meets the hypotheses of C71_syntax_error (see also C43_case). *)
Example C71_syntax_case : exists err, engine_compile bad_source demo_engine = Err err /\
  exists sp why d, blame default_syntax bad_source sp why /\ e_reason err = Some why /\ shown_error io_number err d /\ one_line d.
Proof.
  destruct C43_case as (H1 & H2 & H3 & H4 & H5 & err & E & _). exists err. split; [exact E|].
  assert (V : valid_utf8 bad_source) by (apply asciib_valid; vm_compute; reflexivity).
  destruct (C71_syntax_error only_accents io_number default_syntax demo_engine bad_source err H1 (H2 _) H3 V H4 H5 io_number_plain E) as (sp & why & d & K1 & K2 & _ & K3 & K4 & _).
  exists sp, why, d. auto.
Qed.
Example C71_render_case : exists ast_of err st,
  statements (demo "page") (fun _ => default_syntax) ast_of /\ initial_stack (GBorrowed (VMap [(s2b "items", VList [VInt 1])])) = Ok st /\
  renders (demo "page") (GBorrowed (VMap [(s2b "items", VList [VInt 1])])) (Err err) /\ err <> depth_error (demo "page") /\
  texts_valid err /\ (exists reason p, e_reason err = Some reason /\ e_pretty err = Some p) /\ debug_error only_accents io_number err = text
    ["render error"; "";
     "  --> row:1:9";
     "   |";
     " 1 | <{{ item.name }}>{% if not loop.last %}, {% endif %}";
     "   |         ^^^^^";
     "   |";
     "   = reason: integer does not support key-based access"; ""]%string ++
    s2b "Error { kind: Render, name: Some(" ++ quote "row" ++ s2b "), reason: Some(" ++ quote "integer does not support key-based access" ++
    s2b "), pretty: Some(Pretty { ln: 0, col: 8, width: 5, text: " ++ quote "<{{ item.name }}>{% if not loop.last %}, {% endif %}" ++ s2b " }) }".
Proof.
  destruct (statements_exist _ _ page_well_made) as (ast_of & Ha). exists ast_of. do 2 eexists. split; [exact Ha|]. split; [reflexivity|].
  split; [apply (renders_by _ 200); [vm_compute; reflexivity|discriminate]|]. split; [intros K; vm_compute in K; discriminate K|].
  split; [|split; [do 2 eexists; split; reflexivity|vm_compute; reflexivity]].
  split; [|split]; intros s E; inversion E; apply asciib_valid; vm_compute; reflexivity.
Qed.
