(** Properties C37, C39: floats and booleans; the syntax builder. *)
From Verif Require Import Base Utf8 Ext Errors Syntax AhoCorasick SearchSpec SyntaxSpec Value Ast Lexer LexSpec LexProof Wp
  GrammarSpec Parser LitProof AstOk Compiler CompileProof ParseMain Fmt Stack Filters Render Engine EngineSpec CompileFacts
  RenderSpec RenderMain RenderObs Wrap LiteralSpec Literal FormatSpec BuilderSpec Props2 Demo Props10.

(** ** C37 *)
Section C37.
Context `{X : Ext}.
Variable e : engine.
Hypothesis He : engine_for default_syntax e.
(** A literal with a point, or (unless it begins like a hexadecimal number) with
    an exponent, is not an integer. *)
Definition float_text (s : str) : Prop :=
  number_text s /\ (In x2e s \/ ((In x65 s \/ In x45 s) /\ forall r, s <> x30 :: x78 :: r)).
Lemma numeral_bytes k s v : numeral k s v -> forall c, In c s -> c = x5f \/ exists d, digit c d /\ (d < k)%Z.
Proof.
  induction 1 as [|s v H IH|s v c0 d H IH Hd Hl]; intros c Hc; [destruct Hc|..]; apply in_app_or in Hc as [Hc|[<-|[]]]; eauto.
Qed.
Lemma float_not_int s neg z : float_text s -> ~ int_lit s neg z.
Proof.
  intros (_ & Hs) (_ & H).
  assert (P : forall k d v, numeral k d v -> ~ In x2e d).
  { intros k d v Hn Hi. destruct (numeral_bytes _ _ _ Hn _ Hi) as [E|(x & Hx & _)]; [discriminate E|]. unfold digit in Hx. change (Z.of_N (byte_N x2e)) with 46%Z in Hx. lia. }
  assert (Q : forall k d v, (k <= 10)%Z -> numeral k d v -> ~ In x65 d /\ ~ In x45 d).
  { intros k d v Hk Hn. split; intros Hi; (destruct (numeral_bytes _ _ _ Hn _ Hi) as [E|(x & Hx & Hl)]; [discriminate E|]); unfold digit in Hx; change (Z.of_N (byte_N x65)) with 101%Z in Hx; change (Z.of_N (byte_N x45)) with 69%Z in Hx; lia. }
  destruct H as [(d & v & -> & Hn & _)|[(d & v & -> & Hn & _)|[(d & v & -> & Hn & _)|(v & _ & Hn & _)]]].
  - destruct Hs as [Hi|[[Hi|Hi] _]]; cbn in Hi; (destruct Hi as [Hi|[Hi|Hi]]; [discriminate Hi..|]);
      [now apply (P 2%Z d v)|exact (proj1 (Q 2%Z d v ltac:(lia) Hn) Hi)|exact (proj2 (Q 2%Z d v ltac:(lia) Hn) Hi)].
  - destruct Hs as [Hi|[[Hi|Hi] _]]; cbn in Hi; (destruct Hi as [Hi|[Hi|Hi]]; [discriminate Hi..|]);
      [now apply (P 8%Z d v)|exact (proj1 (Q 8%Z d v ltac:(lia) Hn) Hi)|exact (proj2 (Q 8%Z d v ltac:(lia) Hn) Hi)].
  - destruct Hs as [Hi|[_ Hx]]; [|now apply (Hx d)]. cbn in Hi. destruct Hi as [Hi|[Hi|Hi]]; [discriminate Hi..|]. now apply (P 16%Z d v).
  - destruct Hs as [Hi|[[Hi|Hi] _]]; [now apply (P 10%Z s v)|exact (proj1 (Q 10%Z s v ltac:(lia) Hn) Hi)|exact (proj2 (Q 10%Z s v ltac:(lia) Hn) Hi)].
Qed.
(** C37.  A literal with a point or an exponent is the float the Rust standard
    library reads, negated if the sign is a minus; if it reads none, the template
    does not compile. *)
Theorem C37_floats neg sign lit : sign_of neg sign -> float_text lit ->
  match f64_parse lit with
  | Some f => shows e (number_source sign lit) (fun _ => Some (VFloat (if neg then SpecFloat.SFopp f else f)))
  | None => exists er, engine_compile (number_source sign lit) e = Err er
  end.
Proof.
  intros Hs Ht. destruct (C09_otherwise e He neg sign lit Hs (proj1 Ht) (fun z => float_not_int lit neg z Ht)) as [(f & -> & H)|(-> & H)]; exact H.
Qed.
(** C37.  The literals [true] and [false] are the booleans. *)
Hypothesis HX : ext_ascii X.
Definition bool_word (b : bool) : str := if b then s2b "true" else s2b "false".
Definition bool_tokens (b : bool) : list (token * str) := [(TWhitespace, s2b " "); (TKeyword, bool_word b); (TWhitespace, s2b " ")].
Lemma word_shape b : ident_shape (bool_word b).
Proof.
  destruct HX as (H1 & _ & H3). destruct b.
  - exists 116%N, [114; 117; 101]%N. split; [reflexivity|]. split.
    + split; [unfold word_start; rewrite H1 by reflexivity; apply orb_true_r|]. repeat split. cbn. intuition discriminate.
    + repeat (constructor; [unfold word_char; rewrite H3 by reflexivity; reflexivity|]). constructor.
  - exists 102%N, [97; 108; 115; 101]%N. split; [reflexivity|]. split.
    + split; [unfold word_start; rewrite H1 by reflexivity; apply orb_true_r|]. repeat split. cbn. intuition discriminate.
    + repeat (constructor; [unfold word_char; rewrite H3 by reflexivity; reflexivity|]). constructor.
Qed.
Lemma bool_run b : run false (bool_tokens b) (s2b "}}").
Proof.
  pose proof (word_shape b) as Hs. unfold bool_tokens. apply run_cons; [discriminate|now apply asciib_valid|..].
  - apply nodel_first. cbn. intuition discriminate.
  - split; [discriminate|]. vm_compute. auto.
  - destruct b; apply (stops_low blank _ _); reflexivity.
  - apply run_cons; [destruct b; discriminate|destruct b; now apply asciib_valid|..].
    + destruct b; apply nodel_first; cbn; intuition discriminate.
    + split; [destruct b; cbn; tauto|exact Hs].
    + apply stops_low; [reflexivity|]. destruct HX as (_ & _ & H). unfold word_char. rewrite H by reflexivity. reflexivity.
    + apply last_run.
Qed.
Theorem C37_booleans b : shows e (s2b "{{ " ++ bool_word b ++ s2b " }}") (fun _ => Some (VBool b)).
Proof.
  assert (E : s2b "{{ " ++ bool_word b ++ s2b " }}" = tag (bool_tokens b)) by (destruct b; reflexivity).
  rewrite E. eapply shows_lit. apply tag_compiles; auto using bool_run.
  cbn [bool_tokens lay nonspace List.filter is_space fst negb]. apply ge_base. destruct b; [apply gb_true|apply gb_false]; reflexivity.
Qed.
End C37.
Print Assumptions C37_floats.
Print Assumptions C37_booleans.

(** ** C39 *)
Section C39.
(** C39.  Calling the methods of the builder panics exactly if a call is given an
    empty delimiter, at that call. *)
Theorem C39_panics l :
  match call_all l sb_new with
  | Ok _ => Forall (fun s => se_begin s <> [] /\ se_end s <> []) l
  | Panic => exists l1 s l2, l = l1 ++ s :: l2 /\ Forall (fun s => se_begin s <> [] /\ se_end s <> []) l1 /\ (se_begin s = [] \/ se_end s = [])
  | _ => False
  end.
Proof.
  generalize sb_new as sb. induction l as [|[g b e] l IH]; intros sb; cbn [call_all]; [constructor|].
  assert (K : (b <> [] /\ e <> [] /\ exists sb', (match g with GExpr => @sb_set_expr unit b e sb | GBlock => sb_set_block b e sb | GComment => sb_set_comment b e sb end) = Ok sb') \/
              ((b = [] \/ e = []) /\ (match g with GExpr => @sb_set_expr unit b e sb | GBlock => sb_set_block b e sb | GComment => sb_set_comment b e sb end) = Panic)).
  { destruct b, e; [right|right|right|left]; [destruct g; auto..|]. split; [discriminate|]. split; [discriminate|]. destruct g; eexists; reflexivity. }
  destruct K as [(Hb & Hee & sb' & ->)|(Hb & ->)].
  - specialize (IH sb'). destruct (call_all l sb') as [r| | |]; try contradiction.
    + apply Forall_cons; [split; assumption|exact IH].
    + destruct IH as (l1 & s & l2 & -> & H1 & H2). exists (set_to g b e :: l1), s, l2. split; [reflexivity|]. split; [apply Forall_cons; [split; assumption|exact H1]|exact H2].
  - exists [], (set_to g b e), l. split; [reflexivity|]. split; [constructor|exact Hb].
Qed.
Lemma call_all_last l : forall sb sb', call_all l sb = Ok sb' ->
  sb_expr sb' = match last_setting GExpr l with Some p => Some p | None => sb_expr sb end /\
  sb_block sb' = match last_setting GBlock l with Some p => Some p | None => sb_block sb end /\
  sb_comment sb' = match last_setting GComment l with Some p => Some p | None => sb_comment sb end.
Proof.
  induction l as [|[g b e] l IH]; intros sb sb'; cbn [call_all last_setting se_group se_begin se_end].
  - intros E. injection E as ->. auto.
  - destruct b as [|b0 b]; [destruct g; discriminate|]. destruct e as [|e0 e]; [destruct g; discriminate|].
    destruct g; cbn; intros E; apply IH in E as (E1 & E2 & E3); rewrite E1, E2, E3; cbn;
      destruct (last_setting GExpr l), (last_setting GBlock l), (last_setting GComment l); auto.
Qed.
(** C39.  The syntax built has exactly the delimiters configured by the last call
    for each group, and their hyphenated forms, each kind once. *)
Theorem C39_delimiters l sb : call_all l sb_new = Ok sb ->
  (forall k p, In (k, p) (sb_build sb) <-> configured l k p) /\ NoDup (map fst (sb_build sb)).
Proof.
  intros H. destruct (call_all_last _ _ _ H) as (E1 & E2 & E3). cbn in E1, E2, E3. unfold sb_build, configured. rewrite E1, E2, E3.
  destruct (last_setting GExpr l) as [[b1 e1]|] eqn:L1; destruct (last_setting GBlock l) as [[b2 e2]|] eqn:L2;
    destruct (last_setting GComment l) as [[b3 e3]|] eqn:L3; (split; [intros k p; split|]).
  all: try (cbn; repeat (constructor; [cbn; intuition discriminate|]); constructor; fail).
  all: try (intros Hi; cbn [app In] in Hi; repeat destruct Hi as [Hi|Hi]; try (injection Hi as <- <-; cbn [group_of]; eexists _, _; (split; [eassumption|reflexivity])); destruct Hi; fail).
  all: intros (b & e & L & ->); destruct k; cbn [group_of] in L; rewrite ?L1, ?L2, ?L3 in L; try discriminate L; injection L as -> ->; cbn [app In spelled]; tauto.
Qed.
(** C39.  So the order of calls for different groups, and calls overridden later,
    do not matter. *)
Theorem C39_last_call_wins l l' sb sb' : call_all l sb_new = Ok sb -> call_all l' sb_new = Ok sb' ->
  (forall g, last_setting g l = last_setting g l') -> sb_build sb = sb_build sb'.
Proof.
  intros H H' E. destruct (call_all_last _ _ _ H) as (E1 & E2 & E3). destruct (call_all_last _ _ _ H') as (F1 & F2 & F3).
  unfold sb_build. now rewrite E1, E2, E3, F1, F2, F3, !E.
Qed.
(** C39.  Every syntax a program can construct comes from such calls; and the
    default syntax is the documented one. *)
Theorem C39_every_syntax sx : user_syntax sx <->
  exists l sb, Forall (fun s => valid_utf8 (se_begin s) /\ valid_utf8 (se_end s)) l /\ call_all l sb_new = Ok sb /\ sx = sb_build sb.
Proof.
  assert (App : forall l1 l2 sb, call_all (l1 ++ l2) sb = match call_all l1 sb with Ok sb' => call_all l2 sb' | Err u => Err u | Panic => Panic | OutOfFuel => OutOfFuel end).
  { induction l1 as [|[g b e] l1 IH]; intros l2 sb; cbn [app call_all]; [reflexivity|].
    destruct (match g with GExpr => _ | GBlock => _ | GComment => _ end); auto. }
  assert (Cat : forall l sb0 sb g b e sb', Forall (fun s => valid_utf8 (se_begin s) /\ valid_utf8 (se_end s)) l -> call_all l sb0 = Ok sb -> valid_utf8 b -> valid_utf8 e ->
    (match g with GExpr => @sb_set_expr unit b e sb | GBlock => sb_set_block b e sb | GComment => sb_set_comment b e sb end) = Ok sb' ->
    Forall (fun s => valid_utf8 (se_begin s) /\ valid_utf8 (se_end s)) (l ++ [set_to g b e]) /\ call_all (l ++ [set_to g b e]) sb0 = Ok sb').
  { intros l sb0 sb g b e sb' F H Vb Ve E. split; [apply Forall_app; auto|]. rewrite App, H. cbn. rewrite E. reflexivity. }
  split.
  - intros (sb & Hb & ->). cut (exists l, Forall (fun s => valid_utf8 (se_begin s) /\ valid_utf8 (se_end s)) l /\ call_all l sb_new = Ok sb); [intros (l & F & H); eauto 6|].
    induction Hb as [|sb sb' b e _ (l & F & H) Vb Ve E|sb sb' b e _ (l & F & H) Vb Ve E|sb sb' b e _ (l & F & H) Vb Ve E].
    + exists []. split; [constructor|reflexivity].
    + exists (l ++ [set_to GExpr b e]). exact (Cat l sb_new sb GExpr b e sb' F H Vb Ve E).
    + exists (l ++ [set_to GBlock b e]). exact (Cat l sb_new sb GBlock b e sb' F H Vb Ve E).
    + exists (l ++ [set_to GComment b e]). exact (Cat l sb_new sb GComment b e sb' F H Vb Ve E).
  - intros (l & sb & F & H & ->). exists sb. split; [|reflexivity]. clear App Cat. assert (G : forall sb0, buildable sb0 -> call_all l sb0 = Ok sb -> buildable sb).
    { clear H. induction F as [|[g b e] l [Vb Ve] F IH]; intros sb0 B; cbn [call_all]; [intros E; injection E as <-; exact B|].
      cbn [se_begin se_end] in Vb, Ve. destruct g.
      - destruct (sb_set_expr b e sb0) as [s| | |] eqn:Es; try discriminate. apply IH. exact (bd_expr _ _ _ _ B Vb Ve Es).
      - destruct (sb_set_block b e sb0) as [s| | |] eqn:Es; try discriminate. apply IH. exact (bd_block _ _ _ _ B Vb Ve Es).
      - destruct (sb_set_comment b e sb0) as [s| | |] eqn:Es; try discriminate. apply IH. exact (bd_comment _ _ _ _ B Vb Ve Es). }
    exact (G _ bd_new H).
Qed.
Definition documented_default : list setting :=
  [set_to GExpr (s2b "{{") (s2b "}}"); set_to GBlock (s2b "{%") (s2b "%}"); set_to GComment (s2b "{#") (s2b "#}")].
Theorem C39_default : exists sb, call_all documented_default sb_new = Ok sb /\ default_syntax = sb_build sb.
Proof. eexists. split; reflexivity. Qed.
End C39.
Print Assumptions C39_panics.
Print Assumptions C39_delimiters.
Print Assumptions C39_last_call_wins.
Print Assumptions C39_every_syntax.
Print Assumptions C39_default.

(** ** Concrete cases *)
Section Cases.
(** Beside C37, with a standard library that reads these two floats. *)
Definition half : SpecFloat.spec_float := SpecFloat.S754_finite false 4503599627370496 (-53).
Local Instance some_floats : Ext :=
  {| xid_start := @xid_start ascii_ext; xid_continue := @xid_continue ascii_ext; display_width := @display_width ascii_ext;
     f64_parse := fun s => if str_eqb s (s2b "0.5") || str_eqb s (s2b "5e-1") then Some half else None;
     f64_display := fun _ => [s2b "0.5"]; f64_to_f32 := @f64_to_f32 ascii_ext |}.
Definition plain : engine := match engine_new with Ok e => e | _ => mkengine [] fmt_default [] [] 0 end.
Lemma plain_for : engine_for default_syntax plain.
Proof. apply ef_new. vm_compute. reflexivity. Qed.
Example C37_case_float : shows plain (s2b "{{ -5e-1 }}") (fun _ => Some (VFloat (SpecFloat.SFopp half))) /\
  exists er, engine_compile (s2b "{{ 1.2.3 }}") plain = Err er.
Proof.
  assert (F : forall s, Forall (fun b => number_char (byte_N b) = true) s <-> forallb (fun b => number_char (byte_N b)) s = true) by (intros s; rewrite forallb_forall, Forall_forall; reflexivity).
  split.
  - apply (C37_floats plain plain_for true (s2b "-") (s2b "5e-1")).
    + right. right. auto.
    + split; [|right; split; [left; vm_compute; auto|discriminate]]. exists x35, (s2b "e-1"). repeat split. apply F. reflexivity.
  - apply (C37_floats plain plain_for false [] (s2b "1.2.3")); [left; auto|].
    split; [|left; vm_compute; auto]. exists x31, (s2b ".2.3"). repeat split. apply F. reflexivity.
Qed.
Example C37_case_ext : ext_ascii some_floats.
Proof. exact ascii_ext_ok. Qed.
(** Beside C39: overridden delimiters; an empty one. *)
Definition angle : list setting :=
  [set_to GExpr (s2b "((") (s2b "))"); set_to GBlock (s2b "<[") (s2b "]>"); set_to GExpr (s2b "<{") (s2b "}>")].
Example C39_case : exists sb, call_all angle sb_new = Ok sb /\ configured angle EndExprTrimK (s2b "-}>") /\
  (forall p, ~ configured angle BeginCommentK p) /\ In (EndExprTrimK, s2b "-}>") (sb_build sb).
Proof.
  eexists. split; [reflexivity|]. split; [|split].
  - exists (s2b "<{"), (s2b "}>"). split; reflexivity.
  - intros p (b & e & E & _). vm_compute in E. discriminate E.
  - cbn. tauto.
Qed.
Example C39_case_panics : call_all (angle ++ [set_to GBlock (s2b "<[") []]) sb_new = Panic.
Proof. reflexivity. Qed.
End Cases.
