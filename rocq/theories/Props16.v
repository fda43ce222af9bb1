(** Property theorems: what an error displays (C43). *)
From Verif Require Import Base Utf8 Ext Errors Syntax AhoCorasick SearchSpec SyntaxSpec Value Ast Lexer LexSpec
  GrammarSpec LayoutSpec BlameSpec Parser Compiler CompileProof Fmt Stack Filters Render Engine EngineSpec LocSpec LocProof DecimalSpec DecimalProof MessageSpec
  RenderSpec RenderProof RenderErr RenderMain RenderObs Props2 Props3 Props9 Demo Props15.

Section C43.
Context `{X : Ext}.
(** ** Lines *)
Lemma lines_one s : one_line s -> lines_of s = [s].
Proof.
  induction s as [|c s IH]; intros H; [reflexivity|]. cbn [lines_of]. rewrite IH by (intros K; apply H; now right).
  destruct (byte_eqb c x0a) eqn:E; [|reflexivity]. apply byte_eqb_eq in E. subst. exfalso. apply H. now left.
Qed.
Lemma lines_cons s r : one_line s -> lines_of (s ++ x0a :: r) = s :: lines_of r.
Proof.
  induction s as [|c s IH]; intros H; [reflexivity|]. cbn [lines_of app]. rewrite IH by (intros K; apply H; now right).
  destruct (byte_eqb c x0a) eqn:E; [|reflexivity]. apply byte_eqb_eq in E. subst. exfalso. apply H. now left.
Qed.
Lemma ol_app a b : one_line a -> one_line b -> one_line (a ++ b).
Proof. intros H1 H2 K. apply in_app_or in K as [K|K]; auto. Qed.
Lemma ol_spaces n : one_line (spaces n).
Proof. intros K. apply repeat_spec in K. discriminate. Qed.
Lemma ol_repeat c n : c <> x0a -> one_line (repeat c n).
Proof. intros H K. apply repeat_spec in K. congruence. Qed.
Lemma ol_show n : one_line (show_nat n).
Proof.
  intros K. destruct (show_natural (N.of_nat n)) as (_ & F & _). rewrite Forall_forall in F. specialize (F _ K). vm_compute in F. destruct F as [F _]. now apply F.
Qed.
Lemma nth_app {A} (a b : list A) j : nth_error (a ++ b) j = if j <? length a then nth_error a j else nth_error b (j - length a).
Proof. destruct (Nat.ltb_spec j (length a)); [now apply nth_error_app1|now apply nth_error_app2]. Qed.
Lemma nth_repeat_in {A} (c : A) n j : nth_error (repeat c n) j = if j <? n then Some c else None.
Proof.
  revert j. induction n as [|n IH]; intros [|j]; try reflexivity; cbn [repeat nth_error]. rewrite IH. reflexivity.
Qed.
Lemma carets pre n w k j : ~ In x5e pre -> nth_error (pre ++ (spaces n ++ repeat x5e w) ++ repeat x2d k) j = Some x5e <-> length pre + n <= j < length pre + n + w.
Proof.
  intros Hp. unfold spaces. rewrite nth_app. destruct (Nat.ltb_spec j (length pre)).
  - split; [|lia]. intros K. apply nth_error_In in K. contradiction.
  - rewrite !nth_app, !nth_repeat_in, !app_length, !repeat_length.
    destruct (Nat.ltb_spec (j - length pre) (n + w)).
    + destruct (Nat.ltb_spec (j - length pre) n); [split; [discriminate|lia]|].
      destruct (Nat.ltb_spec (j - length pre - n) w); [split; [lia|reflexivity]|lia].
    + destruct (j - length pre - (n + w) <? k); (split; [discriminate|lia]).
Qed.

(** C43.  The short form is the kind of the error and its reason, and tells both. *)
Theorem C43_short e : display_error e = kind_text (e_kind e) ++ match e_reason e with Some r => s2b ": " ++ r | None => [] end.
Proof. unfold display_error, kind_msg, kind_text. destruct (e_kind e), (e_reason e); rewrite ?app_nil_r; reflexivity. Qed.
Theorem C43_short_tells e e' : display_error e = display_error e' -> same_kind (e_kind e) (e_kind e') /\ e_reason e = e_reason e'.
Proof.
  rewrite !C43_short. intros E. destruct (e_kind e), (e_kind e'), (e_reason e) as [r|], (e_reason e') as [r'|]; try (discriminate E); (split; [solve [reflexivity | exact I]|]); try reflexivity;
    do 2 f_equal; cbn in E; injection E as ->; reflexivity.
Qed.

Lemma alt_tail e reason p : e_reason e = Some reason -> e_pretty e = Some p -> exists before, display_error_alt e = before ++ s2b "reason: " ++ reason ++ [x0a].
Proof.
  intros Hr Hp. unfold display_error_alt. rewrite Hr, Hp. unfold fmt_with_reason, nl.
  eexists. change (s2b " = reason: ") with (s2b " = " ++ s2b "reason: "). rewrite !app_assoc. reflexivity.
Qed.
(** C43.  The long form of an error with a place shows the line and marks the place. *)
Theorem C43_long e reason p : digits_narrow -> e_reason e = Some reason -> e_pretty e = Some p ->
  one_line (p_text p) -> (forall n, e_name e = Some n -> one_line n) ->
  points_at (display_error_alt e) (kind_text (e_kind e)) (match e_name e with Some n => n | None => s2b "<anonymous>" end)
    (N.of_nat (p_ln p + 1)) (N.of_nat (p_col p + 1)) (p_text p) (p_col p) (p_col p + p_width p) /\
  exists before, display_error_alt e = before ++ s2b "reason: " ++ reason ++ [x0a].
Proof.
  intros Hd Hr Hp Ht Hn. unfold display_error_alt. rewrite Hr, Hp. unfold fmt_with_reason, nl.
  assert (Hname : one_line (match e_name e with Some n => n | None => s2b "<anonymous>" end)).
  { destruct (e_name e) as [n|]; [now apply Hn|]. intros K. repeat (destruct K as [K|K]; [discriminate K|]). destruct K. }
  set (name := match e_name e with Some n => n | None => _ end) in *.
  set (num := show_nat (p_ln p + 1)). set (c := show_nat (p_col p + 1)). set (pad := spaces (display_width num)).
  assert (Hk : one_line (kind_msg (e_kind e))).
  { destruct (e_kind e); intros K; repeat (destruct K as [K|K]; [discriminate K|]); destruct K. }
  assert (Hs : forall s, In s [s2b " "; s2b "--> "; s2b ":"; s2b " |"; s2b " | "] -> one_line s).
  { intros s K. repeat (destruct K as [<-|K]; [intros K; repeat (destruct K as [K|K]; [discriminate K|]); destruct K|]). destruct K. }
  assert (Hpad : one_line pad) by apply ol_spaces. assert (Hnum : one_line num) by apply ol_show. assert (Hc : one_line c) by apply ol_show.
  split.
  - exists (s2b " " ++ pad), num, c, (s2b " " ++ pad ++ s2b " |"), (s2b " " ++ num ++ s2b " | ").
    exists ((s2b " " ++ pad ++ s2b " | ") ++ (spaces (p_col p) ++ repeat x5e (p_width p)) ++ repeat x2d (3 - p_width p)). eexists.
    split; [|split; [apply show_natural|split; [apply show_natural|split; [reflexivity|]]]].
    + rewrite <- !app_assoc. cbn [app]. change (kind_text (e_kind e)) with (kind_msg (e_kind e)). rewrite (lines_cons _ _ Hk). f_equal.
      transitivity (lines_of ([] ++ x0a :: (s2b " " ++ pad ++ s2b "--> " ++ name ++ s2b ":" ++ num ++ s2b ":" ++ c) ++ x0a :: (s2b " " ++ pad ++ s2b " |") ++ x0a :: (s2b " " ++ num ++ s2b " | " ++ p_text p) ++ x0a :: (s2b " " ++ pad ++ s2b " | " ++ spaces (p_col p) ++ repeat x5e (p_width p) ++ repeat x2d (3 - p_width p)) ++ x0a :: (s2b " " ++ pad ++ s2b " |" ++ x0a :: s2b " " ++ pad ++ s2b " = reason: " ++ reason ++ [x0a]))).
      { apply f_equal. rewrite <- !app_assoc. reflexivity. }
      rewrite lines_cons by (intros []). f_equal. rewrite lines_cons by (repeat apply ol_app; auto; apply Hs; cbn; tauto). f_equal.
      rewrite lines_cons by (repeat apply ol_app; auto; apply Hs; cbn; tauto). f_equal.
      rewrite lines_cons by (repeat apply ol_app; auto; apply Hs; cbn; tauto). f_equal.
      rewrite lines_cons by (repeat apply ol_app; auto using ol_spaces; try (apply ol_repeat; discriminate); apply Hs; cbn; tauto). reflexivity.
    + intros j. unfold shows. rewrite carets.
      * assert (El : length (s2b " " ++ pad ++ s2b " | ") = length (s2b " " ++ num ++ s2b " | ")).
        { rewrite !app_length. unfold pad, spaces. rewrite repeat_length. unfold num. rewrite Hd. reflexivity. }
        rewrite El. lia.
      * intros K. apply in_app_or in K as [K|K]; [|apply in_app_or in K as [K|K]].
        -- destruct K as [K|[]]. discriminate.
        -- apply repeat_spec in K. discriminate.
        -- repeat (destruct K as [K|K]; [discriminate|]). destruct K.
  - eexists. change (s2b " = reason: ") with (s2b " = " ++ s2b "reason: "). rewrite !app_assoc. reflexivity.
Qed.

Lemma In_firstn {A} (x : A) n l : In x (firstn n l) -> In x l.
Proof. intros H. rewrite <- (firstn_skipn n l). apply in_or_app. now left. Qed.
Lemma In_skipn {A} (x : A) n l : In x (skipn n l) -> In x l.
Proof. intros H. rewrite <- (firstn_skipn n l). apply in_or_app. now right. Qed.
Lemma width_of source sp p : build_pretty source sp = Ok p -> p_width p = Nat.max 1 (display_width (sub source (sp_m sp) (sp_n sp))).
Proof.
  unfold build_pretty, index_span, slice. destruct (to_ln_col _ _) as [ln col]. destruct (_ && _); cbn [bind]; [|discriminate].
  destruct (match nth_error _ _ with Some _ => _ | None => _ end); cbn [bind]; try discriminate. intros E. injection E as <-. reflexivity.
Qed.
Lemma one_narrow source : one_column_per_byte source -> narrow source.
Proof. intros H t (b & a & [E _ Ht _]). eapply H; eauto. Qed.
(** The carets of an error at [sp]. *)
Lemma marks_place source sp p e reason : digits_narrow -> one_column_per_byte source -> build_pretty source sp = Ok p -> ~ past_last_line source (sp_m sp) ->
  e_reason e = Some reason -> e_pretty e = Some p -> (forall n, e_name e = Some n -> one_line n) ->
  exists before text after, line_at source before text after /\ length before <= sp_m sp <= length before + length text /\
    (sp_n sp <= length before + length text ->
     points_at (display_error_alt e) (kind_text (e_kind e)) (match e_name e with Some n => n | None => s2b "<anonymous>" end)
      (N.of_nat (newlines before + 1)) (N.of_nat (sp_m sp - length before + 1)) text
      (sp_m sp - length before) (Nat.max (sp_m sp + 1) (sp_n sp) - length before)).
Proof.
  intros Hd Ho Hb Hp Hr He Hn. pose proof (pretty_in_range _ _ _ Hb) as R.
  destruct (narrow_place source sp p (one_narrow _ Ho) Hp Hb) as (b & a & Hl & El & Em & Hc).
  exists b, (p_text p), a. split; auto. split; [lia|]. intros Hsp.
  pose proof (C43_long e reason p Hd Hr He (la_line _ _ _ _ Hl) Hn) as [P _].
  replace (sp_m sp - length b) with (p_col p) by lia. rewrite <- El. replace (Nat.max (sp_m sp + 1) (sp_n sp) - length b) with (p_col p + p_width p); [exact P|].
  rewrite (width_of _ _ _ Hb). assert (Ew : display_width (sub source (sp_m sp) (sp_n sp)) = sp_n sp - sp_m sp).
  { rewrite (Ho (firstn (sp_m sp) source) (sub source (sp_m sp) (sp_n sp)) (skipn (sp_n sp) source)).
    - apply Trailing.sub_length. lia.
    - rewrite <- Trailing.sub_prefix by lia. now rewrite firstn_skipn.
    - intros K. destruct Hl as [E _ Ht _]. apply Ht. unfold sub in K. rewrite E in K at 1.
      rewrite skipn_app, (skipn_all2 b) in K by lia. cbn [app] in K. rewrite skipn_app, firstn_app, skipn_length in K.
      replace (sp_n sp - sp_m sp - (length (p_text p) - (sp_m sp - length b))) with 0 in K by lia. rewrite firstn_O, app_nil_r in K.
      apply In_firstn in K. now apply In_skipn in K. }
  rewrite Ew. lia.
Qed.

(** C43.  A syntax error says why (C44), shows the line of the place that is to blame
    (C42) and marks exactly the columns of that place.  ([one_column_per_byte]: see C27.) *)
Theorem C43_syntax_error (sx : syntax) e source err :
  user_syntax sx -> trims_ok sx source -> engine_for sx e -> valid_utf8 source -> digits_narrow -> one_column_per_byte source ->
  engine_compile source e = Err err ->
  exists sp why, blame sx source sp why /\
    display_error err = s2b "invalid syntax: " ++ why /\
    (exists before, display_error_alt err = before ++ s2b "reason: " ++ why ++ [x0a]) /\
    (~ past_last_line source (sp_m sp) ->
     exists before text after, line_at source before text after /\ length before <= sp_m sp <= length before + length text /\
       (sp_n sp <= length before + length text ->
        points_at (display_error_alt err) (s2b "invalid syntax") (s2b "<anonymous>")
          (N.of_nat (newlines before + 1)) (N.of_nat (sp_m sp - length before + 1)) text
          (sp_m sp - length before) (Nat.max (sp_m sp + 1) (sp_n sp) - length before))).
Proof.
  intros Hu Hc He Hv Hd Ho E. destruct (C44_reason sx e source err Hu Hc He Hv E) as (sp & reason & p & -> & Hb & Bl).
  exists sp, reason. split; auto. split; [rewrite C43_short; reflexivity|]. split.
  { exact (alt_tail (mkerror KSyntax None (Some reason) (Some p)) reason p eq_refl eq_refl). }
  intros Hp. exact (marks_place source sp p (mkerror KSyntax None (Some reason) (Some p)) reason Hd Ho Hb Hp eq_refl eq_refl ltac:(discriminate)).
Qed.
(** C43.  So does an error of a rendering (that is not the depth error or a failed
    write), for the template it names. *)
Theorem C43_render_error inner origin ast_of g st err reason p :
  statements inner origin ast_of -> initial_stack g = Ok st ->
  renders inner g (Err err) \/ (exists k w w', writes inner g k w (w', Err err) /\ forall c, err <> mk_io_error c) ->
  err <> depth_error inner -> e_reason err = Some reason -> e_pretty err = Some p -> digits_narrow ->
  exists t n sp, nested inner ast_of (ri_template inner) (ri_template_name inner) t n /\
    (one_column_per_byte (t_source t) -> ~ past_last_line (t_source t) (sp_m sp) -> (forall s, n = Some s -> one_line s) ->
     exists before text after, line_at (t_source t) before text after /\ length before <= sp_m sp <= length before + length text /\
       (sp_n sp <= length before + length text ->
        points_at (display_error_alt err) (kind_text (e_kind err)) (match n with Some s => s | None => s2b "<anonymous>" end)
          (N.of_nat (newlines before + 1)) (N.of_nat (sp_m sp - length before + 1)) text
          (sp_m sp - length before) (Nat.max (sp_m sp + 1) (sp_n sp) - length before))).
Proof.
  intros Hs Hg Hr Hd Er Ep Hw. destruct (C28_errors_name_their_template inner origin ast_of g st err Hs Hg Hr) as [->|(t & n & Hn & e0 & He & ->)]; [now destruct Hd|].
  exists t, n. destruct He as [(N & K & sp & p' & Hsp & Eb & E)| -> ].
  - exists sp. split; auto. intros Ho Hp Hone.
    assert (F : e_name (match n with Some s => with_template_name e0 s | None => e0 end) = n /\ e_pretty (match n with Some s => with_template_name e0 s | None => e0 end) = Some p').
    { destruct n; auto. unfold with_template_name. rewrite N. auto. }
    destruct F as [F1 F2]. destruct (marks_place (t_source t) sp p' _ reason Hw Ho Eb Hp Er F2) as (b & tx & a & H1 & H2 & H3).
    + rewrite F1. exact Hone.
    + exists b, tx, a. rewrite F1 in H3. auto.
  - exfalso. destruct n; discriminate Er.
Qed.
End C43.
Print Assumptions C43_short.
Print Assumptions C43_short_tells.
Print Assumptions C43_long.
Print Assumptions C43_syntax_error.
Print Assumptions C43_render_error.

Local Existing Instance ascii_ext.
(** Beside them: ASCII texts, in the build without the unicode feature. *)
Lemma ascii_width t : asciib t = true -> display_width t = length t.
Proof.
  cbn [display_width ascii_ext]. intros H. induction t as [|x t IH]; [reflexivity|]. unfold asciib in H. cbn [forallb] in H. apply andb_prop in H as [H1 H2].
  rewrite (chars_ascii_cons x t H1 H2). cbn [length]. now rewrite IH.
Qed.
Lemma ascii_one_column s : asciib s = true -> one_column_per_byte s.
Proof.
  intros H a t b E _. apply ascii_width. subst s. rewrite !TokStream.asciib_app in H. apply andb_prop in H as [_ H]. apply andb_prop in H as [H _]. exact H.
Qed.
Lemma ascii_digits_narrow : digits_narrow.
Proof.
  intros n. apply ascii_width. unfold show_nat. destruct (show_natural (N.of_nat n)) as (_ & F & _). apply forallb_forall. rewrite Forall_forall in F.
  intros b Hb. apply F in Hb. apply digit_cases in Hb. repeat (destruct Hb as [<-|Hb]; [reflexivity|]). destruct Hb.
Qed.
Definition text (ls : list string) : str := flat_map (fun l => s2b l ++ [x0a]) ls.
Example C43_case :
  user_syntax default_syntax /\ (forall source, trims_ok default_syntax source) /\ engine_for default_syntax demo_engine /\ digits_narrow /\
  one_column_per_byte bad_source /\ (exists err, engine_compile bad_source demo_engine = Err err /\
    display_error err = s2b "invalid syntax: expected identifier or index, found end expression" /\
    display_error_alt err = text
      ["invalid syntax"; "";
       "  --> <anonymous>:2:9";
       "   |";
       " 2 |   {{ a. }}";
       "   |         ^^-";
       "   |";
       "   = reason: expected identifier or index, found end expression"]%string).
Proof.
  split; [exact default_user_syntax|]. split; [exact default_trims_ok|]. split; [exact demo_for|]. split; [exact ascii_digits_narrow|].
  split; [apply ascii_one_column; vm_compute; reflexivity|]. eexists. split; [vm_compute; reflexivity|]. split; vm_compute; reflexivity.
Qed.
Example C43_render_case : exists ast_of err,
  statements (demo "page") (fun _ => default_syntax) ast_of /\
  initial_stack (GBorrowed (VMap [(s2b "items", VList [VInt 1])])) = Ok [FrScope (Borrowed (VMap [(s2b "items", VList [VInt 1])]))] /\
  renders (demo "page") (GBorrowed (VMap [(s2b "items", VList [VInt 1])])) (Err err) /\ err <> depth_error (demo "page") /\
  display_error_alt err = text
    ["render error"; "";
     "  --> row:1:9";
     "   |";
     " 1 | <{{ item.name }}>{% if not loop.last %}, {% endif %}";
     "   |         ^^^^^";
     "   |";
     "   = reason: integer does not support key-based access"]%string.
Proof.
  destruct (statements_exist _ _ page_well_made) as (ast_of & Ha). exists ast_of. eexists. split; [exact Ha|]. split; [reflexivity|].
  split; [apply (renders_by _ 200); [vm_compute; reflexivity|discriminate]|]. split; [intros K; vm_compute in K; discriminate K|]. vm_compute. reflexivity.
Qed.
