(** A concrete engine, used to show that the hypotheses of the theorems can be met
    (the build without the "unicode" feature, [ascii_ext]). *)
From Verif Require Import Base Utf8 Ext Errors Syntax AhoCorasick SearchSpec SyntaxSpec Value Ast Lexer Parser Compiler
  Fmt Stack Filters Render Engine EngineSpec RenderSpec RenderMain RenderObs Props2.
Local Existing Instance ascii_ext.

Definition upper1 (c : byte) : byte := if (97 <=? byte_N c)%N && (byte_N c <=? 122)%N then
  match Byte.of_N (byte_N c - 32) with Some b => b | None => c end else c.
Definition upper : filter := mkfilter TyStr [] (fun a _ => match a with AvString s => inl (VStr (map upper1 s)) | _ => inr [] end).

Definition demo_templates : list (string * string) :=
  [("row"%string, "<{{ item.name }}>{% if not loop.last %}, {% endif %}"%string);
   ("foot"%string, "-{{ name | upper }}-"%string);
   ("page"%string, "{% for item in items %}{% include ""row"" %}{% endfor %}{% with title as t %} {{ t }}{% endwith %} {% include ""foot"" with user %}"%string);
   ("again"%string, "a{% include ""again"" %}"%string)].
Fixpoint adds (l : list (string * string)) (e : engine) : engine :=
  match l with [] => e | (n, s) :: l' => adds l' (fst (add_template (s2b n) (s2b s) e)) end.
Definition demo_engine : engine :=
  match engine_new with Ok e => adds demo_templates (fst (add_filter (s2b "upper") upper e)) | _ => mkengine [] fmt_default [] [] 0 end.

Lemma adds_for sx l : forallb (fun p => asciib (s2b (snd p))) l = true -> forall e, engine_for sx e -> engine_for sx (adds l e).
Proof.
  induction l as [|[n s] l IH]; intros H e He; cbn [adds]; auto. cbn [forallb snd] in H. apply andb_prop in H as [H1 H2].
  apply IH; auto. apply ef_template; auto. now apply asciib_valid.
Qed.
Lemma demo_for : engine_for default_syntax demo_engine.
Proof.
  unfold demo_engine. destruct engine_new as [e| | |] eqn:E; try (vm_compute in E; discriminate).
  apply adds_for; [vm_compute; reflexivity|]. apply ef_filter. now apply ef_new.
Qed.
(** The renderer of a template of an engine. *)
Definition renderer_of (e : engine) (name : string) : renderer_inner :=
  match engine_get_template (s2b name) e with
  | Some r => template_ref_renderer r e
  | None => template_renderer (mktemplate [] []) e
  end.
Lemma renderer_well_made e name : engine_for default_syntax e -> engine_get_template (s2b name) e <> None ->
  well_made (renderer_of e name) (fun _ => default_syntax).
Proof.
  intros He E. unfold renderer_of, engine_get_template in *.
  destruct (map_get (s2b name) (en_templates e)) as [t|] eqn:Em; [|now destruct E].
  apply engine_well_made; [exact default_user_syntax|intros ? ? _; apply default_trims_ok|exact He|].
  exact (engine_templates _ _ default_user_syntax He (s2b name) _ (MapFacts.map_get_In _ _ _ Em) (default_trims_ok _)).
Qed.
Definition demo := renderer_of demo_engine.
Lemma demo_well_made name : match engine_get_template (s2b name) demo_engine with Some _ => true | None => false end = true ->
  well_made (demo name) (fun _ => default_syntax).
Proof.
  intros E. apply renderer_well_made; [exact demo_for|]. intros E'. rewrite E' in E. discriminate E.
Qed.
Lemma page_well_made : well_made (demo "page") (fun _ => default_syntax).
Proof. apply demo_well_made. vm_compute. reflexivity. Qed.
Lemma again_well_made : well_made (demo "again") (fun _ => default_syntax).
Proof. apply demo_well_made. vm_compute. reflexivity. Qed.

Definition demo_value : value :=
  VMap (map_of_list [(s2b "items", VList [VMap [(s2b "name", VStr (s2b "x"))]; VMap [(s2b "name", VInt 7)]]);
                     (s2b "title", VStr (s2b "T")); (s2b "user", VMap [(s2b "name", VStr (s2b "ann"))])]).
Example demo_page : to_string 200 (demo "page") (GBorrowed demo_value) = Ok (s2b "<x>, <7> T -ANN-").
Proof. vm_compute. reflexivity. Qed.

(** The statements of a text, and the other hypotheses of the laws about parts. *)
Definition parsed (s : string) : scope := match parse_template (en_searcher demo_engine) (s2b s) with Ok l => l | _ => [] end.
Lemma parsed_ok s : asciib (s2b s) = true -> Forall (AstOk.stmt_ok (s2b s)) (parsed s).
Proof.
  intros Ha. unfold parsed. pose proof (asciib_valid _ Ha) as Hv. destruct (parse_template _ (s2b s)) as [l| | |] eqn:E; try apply Forall_nil.
  apply (C08_accepted_iff_grammatical _ _ _ default_user_syntax (default_trims_ok _) demo_for Hv) in E.
  exact (ParseMain.derives_ok _ default_user_syntax _ Hv _ E).
Qed.
(** A variable written at some place. *)
Definition var_at (m n : nat) : var := [mkmember Direct (AKey (mkident (mkspan m n))) (mkspan m n)].
