(** Property C46: templates put one after the other. *)
From Verif Require Import Base Utf8 Ext Errors Syntax AhoCorasick SearchSpec SyntaxSpec Value Ast Lexer LexSpec Wp
  GrammarSpec Parser AstOk Compiler CompileProof ParseMain Fmt Stack Filters Render Engine EngineSpec CompileFacts
  RenderSpec RenderProof RenderErr MapFacts RenderMain RenderObs Props2 Props3 Demo Meaning MeaningProof LayoutSpec LayoutProof
  ConcatSpec Concat Props14.

Section Runs.
Context `{X : Ext}.

(** ** Trees of writes *)
(** Every successful end of the tree returns [a]. *)
Fixpoint gives {A} (a : A) (x : rt A) : Prop :=
  match x with RRet (Ok v) => v = a | RRet _ => True | RWrite _ o e => gives a o /\ gives a e end.
Lemma gives_bind {A B} (x : rt A) (f : A -> rt B) a b : gives a x -> gives b (f a) -> gives b (rbind x f).
Proof. induction x as [r|s o IHo e IHe]; cbn [gives rbind]; [|intuition]. destruct r; cbn; auto. now intros ->. Qed.
Lemma gives_any {A B} (x : rt A) (f : A -> rt B) b : (forall a, gives b (f a)) -> gives b (rbind x f).
Proof. intros H. induction x as [r|s o IHo e IHe]; cbn [gives rbind]; [|intuition]. destruct r; cbn; auto. Qed.
Lemma run_bind {A B} (x : rt A) (f : A -> rt B) a : gives a x -> forall buf,
  run_string buf (rbind x f) =
  match snd (run_string buf x) with Ok _ => run_string (fst (run_string buf x)) (f a) | Err e => (fst (run_string buf x), Err e) | Panic => (fst (run_string buf x), Panic) | OutOfFuel => (fst (run_string buf x), OutOfFuel) end.
Proof.
  induction x as [r|s o IHo e IHe]; cbn [gives rbind run_string]; intros H buf; [|apply IHo; tauto]. destruct r; cbn; auto. now rewrite H.
Qed.
Lemma run_buf {A} (x : rt A) : forall buf, run_string buf x = (buf ++ fst (run_string [] x), snd (run_string [] x)).
Proof.
  induction x as [r|s o IHo e IHe]; intros buf; cbn [run_string]; [cbn; now rewrite app_nil_r|].
  rewrite IHo, (IHo ([] ++ s)). cbn [fst snd app]. now rewrite app_assoc.
Qed.

(** ** The names asked for do not change *)
Section Steady.
Variable w : world.
Hypothesis Hw : forall asked name, match w_find w asked name with inl (_, asked') => asked' = asked | inr _ => True end.
Section Stmts.
Variable inc : option meaning.
Hypothesis Hinc : match inc with Some m => forall body n en h, gives h (m body n en h) | None => True end.
Variable n : option str.
Lemma steady_stmt : forall s en h, gives h (m_stmt w inc n s en h).
Proof.
  assert (SC : forall l, Forall (fun x => forall en h, gives h (m_stmt w inc n x en h)) l -> forall en h, gives h (m_scope w inc n l en h)).
  { induction 1 as [|x l Hx _ IHl]; intros en h; cbn [m_scope]; [reflexivity|]. eapply gives_bind; eauto. }
  assert (Each : forall f en bs, (forall en h, gives h (f en h)) -> forall h, gives h (m_each f en bs h)).
  { intros f en bs E. induction bs as [|b bs IHb]; intros h; cbn [m_each]; [reflexivity|]. eapply gives_bind; eauto. }
  induction s as [t|e|name arg|neg c thn els IHt IHe|item e b IHb|kn vn e b IHb|e name b IHb] using pstmt_ind'; intros en h.
  - cbn. auto.
  - cbn [m_stmt]. destruct (m_show w en e) as [[f v]|t]; [|exact I]. apply gives_any. reflexivity.
  - cbn [m_stmt].
    assert (IN : forall en', gives h (match w_find w h name with
      | inr r => m_fail n (KRender, r)
      | inl (body, asked) => match inc with None => m_fail None (KRender, s2b "reached maximum include depth (" ++ show_N (w_limit w) ++ s2b ")") | Some meaning => meaning body (Some name) en' asked end end)).
    { intros en'. specialize (Hw h name). destruct (w_find w h name) as [[body h']|r]; [subst h'|exact I]. destruct inc; [apply Hinc|exact I]. }
    destruct arg as [e|]; [|apply IN]. destruct (m_expr w en e); [apply IN|exact I].
  - rewrite !m_stmt_if. destruct (m_expr w en c) as [v|]; [|exact I]. destruct (xorb _ _); [now apply SC|]. destruct els; [now apply SC|reflexivity].
  - rewrite !m_stmt_for. destruct (m_expr w en e) as [v|]; [|exact I]. destruct (cow_val v); try exact I. apply Each. now apply SC.
  - rewrite !m_stmt_entries. destruct (m_expr w en e) as [v|]; [|exact I]. destruct (cow_val v); try exact I. apply Each. now apply SC.
  - rewrite !m_stmt_with. destruct (m_expr w en e) as [v|]; [|exact I]. now apply SC.
Qed.
Lemma steady_scope l : forall en h, gives h (m_scope w inc n l en h).
Proof. induction l as [|s l IH]; intros en h; cbn [m_scope]; [reflexivity|]. eapply gives_bind; [apply steady_stmt|apply IH]. Qed.
Lemma scope_run x y en h buf : run_string buf (m_scope w inc n (x ++ y) en h) =
  run_string buf (rbind (m_scope w inc n x en h) (fun h => m_scope w inc n y en h)).
Proof.
  revert buf. induction x as [|s x IH]; intros buf; cbn [app m_scope]; [reflexivity|]. rewrite rbind_assoc.
  rewrite !(run_bind _ _ h) by apply steady_stmt. destruct (snd _); auto.
Qed.
Lemma text_run x s t y en h buf : run_string buf (m_scope w inc n (x ++ PText (s ++ t) :: y) en h) =
  run_string buf (m_scope w inc n ((x ++ [PText s]) ++ PText t :: y) en h).
Proof.
  rewrite <- app_assoc. cbn [app]. rewrite !scope_run, !(run_bind _ _ h) by apply steady_scope. destruct (snd _); auto.
  cbn [m_scope m_stmt rbind run_string]. now rewrite app_assoc.
Qed.
End Stmts.
Lemma steady_template d : forall body n en h, gives h (m_template w d body n en h).
Proof. induction d as [|d IH]; intros body n en h; cbn [m_template]; apply steady_scope; auto. Qed.
Lemma render_app x y z n en : joined x y z ->
  string_result (m_render w z n en) =
  (let* oa := string_result (m_render w x n en) in let* ob := string_result (m_render w y n en) in Ok (oa ++ ob)).
Proof.
  intros J. unfold m_render. set (d := N.to_nat (w_limit w) - 1).
  set (inc := match d with 0 => None | S d' => Some (m_template w d') end).
  assert (Hinc : match inc with Some m => forall body n en h, gives h (m body n en h) | None => True end).
  { unfold inc. destruct d; [exact I|]. intros. apply steady_template. }
  assert (M : forall l, m_template w d l n en [] = m_scope w inc n l en []) by (intros l; unfold inc; destruct d; reflexivity).
  rewrite !M. unfold string_result.
  assert (S : run_string [] (let% _ := m_scope w inc n z en [] in RRet (Ok tt)) = run_string [] (let% _ := m_scope w inc n (x ++ y) en [] in RRet (Ok tt))).
  { rewrite !(run_bind _ _ []) by now apply steady_scope. assert (E : run_string [] (m_scope w inc n z en []) = run_string [] (m_scope w inc n (x ++ y) en [])).
    { destruct J as [->|(x' & s & y' & t & -> & -> & ->)]; [reflexivity|]. now apply text_run. }
    now rewrite E. }
  rewrite S, !(run_bind _ _ []) by now apply steady_scope. rewrite scope_run by auto. rewrite (run_bind _ _ []) by now apply steady_scope.
  destruct (run_string [] (m_scope w inc n x en [])) as [oa [ra| | |]]; cbn [fst snd bind run_string]; auto.
  rewrite (run_buf (m_scope w inc n y en []) oa). destruct (run_string [] (m_scope w inc n y en [])) as [ob [rb| | |]]; cbn [fst snd run_string bind]; auto.
Qed.
End Steady.
Lemma confined_app x y i : confined_all i (x ++ y) <-> confined_all i x /\ confined_all i y.
Proof. induction x as [|s x IH]; cbn [app confined_all]; [tauto|]. rewrite IH. tauto. Qed.
End Runs.

Section C46.
Context `{X : Ext}.

(** C46.  If two texts compile and are put one after the other, and no delimiter and no
    trimming reaches across the place where they meet ([apart], ConcatSpec.v), then
    the whole compiles, and rendering it gives the output of the first followed by the
    output of the second; or the error of the first; or that of the second. *)
Theorem C46_concatenation sx e a b ta tb tname depth :
  user_syntax sx -> engine_for sx e -> (forall n t, In (n, t) (en_templates e) -> trims_ok sx (t_source t)) ->
  valid_utf8 a -> valid_utf8 b -> trims_ok sx a -> trims_ok sx b -> apart sx a b ->
  engine_compile a e = Ok ta -> engine_compile b e = Ok tb ->
  (forall t s, t = ta \/ t = tb \/ (exists n, In (n, t) (en_templates e)) -> derives sx (t_source t) s -> sharing_all false s) ->
  exists t, engine_compile (a ++ b) e = Ok t /\
  forall g ra rb, renders (mkinner e ta tname depth None) g ra -> renders (mkinner e tb tname depth None) g rb ->
  exists r, renders (mkinner e t tname depth None) g r /\
    without_place r = (let* oa := without_place ra in let* ob := without_place rb in Ok (oa ++ ob)).
Proof.
  intros Hu He Htr Ha Hb Tra Trb (Hs & Hta & Htb) Ea Eb Hsh.
  pose proof (engine_searcher _ _ He) as Hsr.
  assert (Vab : valid_utf8 (a ++ b)) by now apply valid_app.
  assert (Trab : trims_ok sx (a ++ b)) by now apply trims_app.
  pose proof Ea as Ea'. pose proof Eb as Eb'.
  apply (compile_iff sx Hu _ Hsr a Ha Tra) in Ea' as (la & Da & Eta). apply (compile_iff sx Hu _ Hsr b Hb Trb) in Eb' as (lb & Db & Etb).
  destruct (derives_app sx Hu a b Ha Hb Hs Hta Htb la lb Da Db) as (l & D & J).
  assert (exists t, engine_compile (a ++ b) e = Ok t) as (t & Et) by (eexists; apply (compile_iff sx Hu _ Hsr (a ++ b) Vab Trab); eauto).
  exists t. split; [exact Et|]. intros g ra rb Ra Rb.
  assert (src : forall s t, engine_compile s e = Ok t -> t_source t = s) by (intros s0 t0 E0; exact (compile_source _ _ _ E0)).
  pose proof (src _ _ Ea) as Sa. pose proof (src _ _ Eb) as Sb. pose proof (src _ _ Et) as St.
  set (ast_of := fun t : template => match parse_template (en_searcher e) (t_source t) with Ok l => l | _ => [] end).
  assert (W : forall x s, valid_utf8 s -> trims_ok sx s -> engine_compile s e = Ok x -> well_made (mkinner e x tname depth None) (fun _ => sx)).
  { intros x s Vs Ts Ex. apply engine_well_made; auto. pose proof (src _ _ Ex) as Sx. rewrite <- Sx in Vs, Ts, Ex. split; [exact Hu|]. split; [exact Ts|]. split; [exact Vs|]. eauto. }
  assert (ST : forall x s, valid_utf8 s -> trims_ok sx s -> engine_compile s e = Ok x -> statements (mkinner e x tname depth None) (fun _ => sx) ast_of).
  { intros x s Vs Ts Ex y Hp. pose proof (W x s Vs Ts Ex y Hp) as Hy. split; [exact Hy|]. destruct Hy as (_ & Ty & Vy & e' & He' & Ey).
    destruct (proj1 (proj1 (proj2 (C08_accepted_iff_grammatical sx e' (t_source y) Hu Ty He' Vy))) (ex_intro _ _ Ey)) as (s' & D').
    unfold ast_of. pose proof D' as P. apply (C08_accepted_iff_grammatical sx e (t_source y) Hu Ty He Vy) in P. rewrite P. exact D'. }
  assert (AST : forall s x l, valid_utf8 s -> trims_ok sx s -> t_source x = s -> derives sx s l -> ast_of x = l).
  { intros s x l0 Vs Ts Sx D0. unfold ast_of. rewrite Sx. apply (C08_accepted_iff_grammatical sx e s Hu Ts He Vs) in D0. now rewrite D0. }
  assert (CF : forall x, t_source x = t_source ta \/ t_source x = t_source tb \/ (exists n, In (n, x) (en_templates e)) -> trims_ok sx (t_source x) -> valid_utf8 (t_source x) -> 
    (exists l, derives sx (t_source x) l) -> confined_all false (bare (t_source x) (ast_of x))).
  { intros x Hx Tx Vx (l0 & D0). rewrite (AST _ x l0 Vx Tx eq_refl D0). apply confined_all_bare.
    destruct Hx as [E|[E|E]]; [apply (Hsh ta); auto; now rewrite <- E|apply (Hsh tb); auto; now rewrite <- E|apply (Hsh x); auto]. }
  assert (CFP : forall x s, (s = a \/ s = b \/ s = a ++ b) -> valid_utf8 s -> trims_ok sx s -> engine_compile s e = Ok x ->
    forall y, provided (mkinner e x tname depth None) y -> confined_all false (bare (t_source y) (ast_of y))).
  { intros x s Hsrc Vs Ts Ex y Hp. destruct (ST x s Vs Ts Ex y Hp) as ((_ & Ty & Vy & _) & Dy).
    destruct Hp as [->|[(f & h & n & Ef & _)|(_ & n & En)]]; cbn in *.
    - pose proof (src _ _ Ex) as Sx. destruct Hsrc as [->|[->| ->]]; [apply CF; eauto; left; congruence|apply CF; eauto; right; left; congruence|].
      rewrite (AST _ x l Vs Ts Sx D), Sx.
      assert (Ca : confined_all false (bare a la)) by (apply confined_all_bare; apply (Hsh ta); auto; now rewrite Sa).
      assert (Cb : confined_all false (bare b lb)) by (apply confined_all_bare; apply (Hsh tb); auto; now rewrite Sb).
      destruct J as [->|(x' & s1 & y' & s2 & E1 & E2 & ->)]; [apply confined_app; auto|].
      rewrite E1 in Ca. rewrite E2 in Cb. apply confined_app in Ca as (Ca & _). apply confined_app. split; [exact Ca|]. cbn in Cb |- *. tauto.
    - discriminate Ef.
    - apply CF; eauto. right. right. exists n. now apply map_get_In. }
  assert (Find : forall asked name, match w_find (world_of (mkinner e t tname depth None) ast_of) asked name with inl (_, asked') => asked' = asked | inr _ => True end).
  { intros asked name. cbn. destruct (map_get name (en_templates e)); auto. }
  destruct (initial_stack g) as [st|er| |] eqn:Eg.
  - destruct (C40_meaning _ _ ast_of g (ST ta a Ha Tra Ea) (CFP ta a (or_introl eq_refl) Ha Tra Ea) st Eg) as ((r1 & R1 & M1) & _).
    destruct (C40_meaning _ _ ast_of g (ST tb b Hb Trb Eb) (CFP tb b (or_intror (or_introl eq_refl)) Hb Trb Eb) st Eg) as ((r2 & R2 & M2) & _).
    destruct (C40_meaning _ _ ast_of g (ST t _ Vab Trab Et) (CFP t _ (or_intror (or_intror eq_refl)) Vab Trab Et) st Eg) as ((r3 & R3 & M3) & _).
    exists r3. split; [exact R3|]. rewrite M3, (renders_fun _ _ _ _ Ra R1), (renders_fun _ _ _ _ Rb R2), M1, M2.
    apply render_app; [exact Find|]. unfold root_of. cbn [ri_template].
    rewrite (AST _ ta la Ha Tra Sa Da), (AST _ tb lb Hb Trb Sb Db), (AST _ t l Vab Trab St D), Sa, Sb, St. exact J.
  - destruct Ra as (Na & n & Ra). assert (ra = Err er) as -> by (rewrite <- (Ra n) by auto; unfold to_string; now rewrite Eg).
    exists (Err er). split; [|reflexivity]. split; [discriminate|]. exists 0. intros fuel _. unfold to_string. now rewrite Eg.
  - destruct Ra as (Na & n & Ra). assert (ra = Panic) as -> by (rewrite <- (Ra n) by auto; unfold to_string; now rewrite Eg).
    exists Panic. split; [|reflexivity]. split; [discriminate|]. exists 0. intros fuel _. unfold to_string. now rewrite Eg.
  - destruct Ra as (Na & n & Ra). exfalso. apply Na. rewrite <- (Ra n) by auto. unfold to_string. now rewrite Eg.
Qed.
End C46.
Print Assumptions C46_concatenation.

(** ** A concrete case *)
(** Checking [apart] by computation. *)
Definition occursb (p h : str) (i : nat) : bool := (i <=? length h) && str_eqb (firstn (length p) (skipn i h)) p.
Lemma occursb_ok p h i : occurs_at p h i -> occursb p h i = true.
Proof.
  intros (L & t & E). unfold occursb. rewrite E, firstn_app, firstn_all, Nat.sub_diag. cbn [firstn]. rewrite app_nil_r.
  apply andb_true_intro. split; [now apply Nat.leb_le|]. now apply str_eqb_eq.
Qed.
Definition whiteb (s : str) : bool := is_empty (trim_end s).
Lemma whiteb_ok s : valid_utf8 s -> white s -> whiteb s = true.
Proof.
  intros V W. unfold whiteb. destruct (TrimProof.trim_end_spec s V) as (w & E & Hw & Hv & Hn). destruct (trim_end s) as [|x l] eqn:Et; [reflexivity|].
  exfalso. apply Hn. rewrite E in W. apply TrimProof.white_suffix in W as (W & _); auto; [|now apply TrimProof.white_valid]. apply TrimProof.white_ends; [exact W|discriminate].
Qed.
Definition apartb (sx : syntax) (a b : str) : bool :=
  forallb (fun kp => forallb (fun i => negb (occursb (snd kp) (a ++ b) i) || (i + length (snd kp) <=? length a)) (seq 0 (length a))) sx &&
  forallb (fun kp => opening (fst kp) || negb (hyphenated (fst kp)) ||
    forallb (fun m => negb (occursb (snd kp) a m) || negb (whiteb (sub a (m + length (snd kp)) (length a)))) (seq 0 (S (length a)))) sx &&
  forallb (fun kp => negb (opening (fst kp)) || negb (hyphenated (fst kp)) ||
    forallb (fun m => negb (occursb (snd kp) b m) || negb (whiteb (sub b 0 m))) (seq 0 (S (length b)))) sx.
Lemma apartb_ok sx a b : user_syntax sx -> valid_utf8 a -> valid_utf8 b -> apartb sx a b = true -> apart sx a b.
Proof.
  intros Hu Ha Hb E. apply andb_prop in E as [E E3]. apply andb_prop in E as [E1 E2]. rewrite forallb_forall in E1, E2, E3. split; [|split].
  - intros k p i Hin O L. specialize (E1 _ Hin). cbn [snd] in E1. rewrite forallb_forall in E1. specialize (E1 i ltac:(apply in_seq; lia)).
    apply occursb_ok in O. rewrite O in E1. now apply Nat.leb_le.
  - intros k m n (_ & _ & L & _ & _ & bf & p & af & Es & O & Lp & _) Ok Hk W. assert (Hin : In (k, p) sx) by (rewrite Es; apply in_elt).
    specialize (E2 _ Hin). cbn [fst snd] in E2. rewrite Ok, Hk in E2. cbn [orb negb] in E2. rewrite forallb_forall in E2. destruct O as (Lm & O).
    specialize (E2 m ltac:(apply in_seq; lia)). pose proof (occursb_ok p a m (conj Lm O)) as Ob. rewrite Ob in E2. cbn [negb orb] in E2.
    destruct (user_syntax_pat _ Hu _ _ Hin) as (Hne & Hp).
    destruct (LexProof.occurs_boundary p a m Ha Hp Hne (conj Lm O)) as (_ & B2 & _).
    assert (0 < length p) by (destruct p; [congruence|cbn; lia]). replace n with (m + length p) in * by lia.
    rewrite whiteb_ok in E2; [discriminate E2|apply sub_valid; auto; try lia; apply boundary_len|exact W].
  - intros k m n (_ & _ & L & _ & _ & bf & p & af & Es & O & Lp & _) Ok Hk W. assert (Hin : In (k, p) sx) by (rewrite Es; apply in_elt).
    specialize (E3 _ Hin). cbn [fst snd] in E3. rewrite Ok, Hk in E3. cbn [orb negb] in E3. rewrite forallb_forall in E3. destruct O as (Lm & O).
    specialize (E3 m ltac:(apply in_seq; lia)). pose proof (occursb_ok p b m (conj Lm O)) as Ob. rewrite Ob in E3. cbn [negb orb] in E3.
    destruct (user_syntax_pat _ Hu _ _ Hin) as (Hne & Hp).
    destruct (LexProof.occurs_boundary p b m Hb Hp Hne (conj Lm O)) as (B1 & _).
    rewrite whiteb_ok in E3; [discriminate E3|apply sub_valid; auto; try lia; apply boundary_0|exact W].
Qed.

Local Existing Instance ascii_ext.
Definition part_a : str := s2b "{% for item in items -%} {{ item.name }}, {% endfor %}so ".
Definition part_b : str := s2b "far {%- include ""foot"" with user -%} {# end #}!".
Definition compiled (s : str) : template := match engine_compile s demo_engine with Ok t => t | _ => mktemplate [] [] end.
Definition fineb (t : template) : bool := asciib (t_source t) && forallb (confinedb false) (bare (t_source t) (demo_ast t)).
Lemma fine_in (l : list (str * template)) n t : forallb (fun p => fineb (snd p)) l = true -> In (n, t) l -> fineb t = true.
Proof. intros A Hn. rewrite forallb_forall in A. exact (A _ Hn). Qed.
Lemma demo_sharing t s : t = compiled part_a \/ t = compiled part_b \/ (exists n, In (n, t) (en_templates demo_engine)) ->
  derives default_syntax (t_source t) s -> sharing_all false s.
Proof.
  intros Ht D.
  assert (F : fineb t = true).
  { destruct Ht as [->|[->|(n & Hn)]]; [vm_compute; reflexivity..|].
    refine (fine_in _ n t _ Hn). vm_compute. reflexivity. }
  apply andb_prop in F as [V F]. apply asciib_valid in V.
  apply confined_all_bare with (t_source t).
  assert (P : demo_ast t = s).
  { unfold demo_ast. rewrite (proj2 (proj1 (C08_accepted_iff_grammatical _ _ _ default_user_syntax (default_trims_ok _) demo_for V) s) D). reflexivity. }
  rewrite P in F. exact (confinedb_all _ _ F).
Qed.
Example C46_case : exists t,
  user_syntax default_syntax /\ engine_for default_syntax demo_engine /\
  (forall n t, In (n, t) (en_templates demo_engine) -> trims_ok default_syntax (t_source t)) /\
  valid_utf8 part_a /\ valid_utf8 part_b /\ trims_ok default_syntax part_a /\ trims_ok default_syntax part_b /\ apart default_syntax part_a part_b /\
  engine_compile part_a demo_engine = Ok (compiled part_a) /\ engine_compile part_b demo_engine = Ok (compiled part_b) /\
  (forall t s, t = compiled part_a \/ t = compiled part_b \/ (exists n, In (n, t) (en_templates demo_engine)) ->
    derives default_syntax (t_source t) s -> sharing_all false s) /\
  engine_compile (part_a ++ part_b) demo_engine = Ok t /\
  to_string 200 (template_renderer (compiled part_a) demo_engine) (GBorrowed demo_value) = Ok (s2b "x, 7, so ") /\
  to_string 200 (template_renderer (compiled part_b) demo_engine) (GBorrowed demo_value) = Ok (s2b "far-ANN-!") /\
  to_string 200 (template_renderer t demo_engine) (GBorrowed demo_value) = Ok (s2b "x, 7, so far-ANN-!").
Proof.
  exists (compiled (part_a ++ part_b)). split; [exact default_user_syntax|]. split; [exact demo_for|]. split; [intros; apply default_trims_ok|].
  assert (Va : valid_utf8 part_a) by (apply asciib_valid; vm_compute; reflexivity). assert (Vb : valid_utf8 part_b) by (apply asciib_valid; vm_compute; reflexivity).
  split; [exact Va|]. split; [exact Vb|]. split; [apply default_trims_ok|]. split; [apply default_trims_ok|].
  split; [apply apartb_ok; [exact default_user_syntax|exact Va|exact Vb|vm_compute; reflexivity]|].
  split; [vm_compute; reflexivity|]. split; [vm_compute; reflexivity|]. split; [exact demo_sharing|]. split; [vm_compute; reflexivity|].
  split; [vm_compute; reflexivity|]. split; vm_compute; reflexivity.
Qed.
(** The conditions are needed: these three pairs of templates are not [apart]. *)
Example C46_needed :
  (* a delimiter across the place *)
  apartb default_syntax (s2b "{") (s2b "{") = false /\
  to_string 200 (template_renderer (compiled (s2b "{")) demo_engine) (GBorrowed demo_value) = Ok (s2b "{") /\
  (match engine_compile (s2b "{{") demo_engine with Err _ => true | _ => false end) = true /\
  (* trimming across it *)
  apartb default_syntax (s2b "{{ title -}} ") (s2b " b") = false /\
  to_string 200 (template_renderer (compiled (s2b "{{ title -}} ")) demo_engine) (GBorrowed demo_value) = Ok (s2b "T") /\
  to_string 200 (template_renderer (compiled (s2b " b")) demo_engine) (GBorrowed demo_value) = Ok (s2b " b") /\
  to_string 200 (template_renderer (compiled (s2b "{{ title -}}  b")) demo_engine) (GBorrowed demo_value) = Ok (s2b "Tb") /\
  apartb default_syntax (s2b "a ") (s2b " {{- title }}") = false /\
  to_string 200 (template_renderer (compiled (s2b "a ")) demo_engine) (GBorrowed demo_value) = Ok (s2b "a ") /\
  to_string 200 (template_renderer (compiled (s2b " {{- title }}")) demo_engine) (GBorrowed demo_value) = Ok (s2b "T") /\
  to_string 200 (template_renderer (compiled (s2b "a  {{- title }}")) demo_engine) (GBorrowed demo_value) = Ok (s2b "aT").
Proof. repeat (split; [vm_compute; reflexivity|]). vm_compute; reflexivity. Qed.
