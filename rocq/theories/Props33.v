(** C60: the crate without the feature "filters". *)
From Verif Require Import Base Utf8 Ext Errors Syntax AhoCorasick Value MapFacts Ast Lexer Parser Compiler Fmt Stack Filters Render Engine EngineSpec
  RenderSpec RenderProof RenderErr RenderObs RenderMain UseSpec UseProof Props2 Props3 Props10 Props11 Demo Slim.

(** The engine of the full crate with the same formatters and templates, and a
    renderer over it. *)
Definition full (e : slim_engine) : engine :=
  mkengine (se_searcher e) (se_default_formatter e) (map (fun p => (fst p, EFormatter (snd p))) (se_functions e)) (se_templates e) (se_max_include_depth e).
Definition full_inner (i : slim_inner) : renderer_inner :=
  mkinner (full (si_engine i)) (si_template i) (si_template_name i) (si_max_include_depth i) (si_template_fn i).

(** What a program can do with an engine in either build, and what it is told. *)
Inductive action :=
| ASetDepth (n : N)
| ASetDefault (f : formatter)
| AAddFormatter (name : str) (f : formatter)
| ARemoveFunction (name : str)
| AAddTemplate (name source : str)
| ARemoveTemplate (name : str)
| AGetTemplate (name : str)
| ACompile (source : str).
Inductive answer :=
| NothingSaid
| Replaced (k : option engine_fn_kind)
| Added (r : res unit)
| Removed (b : bool)
| Got (t : option (str * template))
| Compiled (t : res template).

Section Actions.
Context `{X : Ext}.
Definition act (a : action) (e : engine) : engine * answer :=
  match a with
  | ASetDepth n => (set_max_include_depth n e, NothingSaid)
  | ASetDefault f => (set_default_formatter f e, NothingSaid)
  | AAddFormatter n f => let (e', k) := add_formatter n f e in (e', Replaced k)
  | ARemoveFunction n => let (e', k) := remove_function n e in (e', Replaced k)
  | AAddTemplate n s => let (e', r) := add_template n s e in (e', Added r)
  | ARemoveTemplate n => let (e', b) := remove_template n e in (e', Removed b)
  | AGetTemplate n => (e, Got (engine_get_template n e))
  | ACompile s => (e, Compiled (engine_compile s e))
  end.
Definition slim_act (a : action) (e : slim_engine) : slim_engine * answer :=
  match a with
  | ASetDepth n => (slim_set_max_include_depth n e, NothingSaid)
  | ASetDefault f => (slim_set_default_formatter f e, NothingSaid)
  | AAddFormatter n f => let (e', k) := slim_add_formatter n f e in (e', Replaced k)
  | ARemoveFunction n => let (e', k) := slim_remove_function n e in (e', Replaced k)
  | AAddTemplate n s => let (e', r) := slim_add_template n s e in (e', Added r)
  | ARemoveTemplate n => let (e', b) := slim_remove_template n e in (e', Removed b)
  | AGetTemplate n => (e, Got (slim_template n e))
  | ACompile s => (e, Compiled (slim_compile s e))
  end.
Fixpoint acts (l : list action) (e : engine) : engine * list answer :=
  match l with
  | [] => (e, [])
  | a :: l => let (e, x) := act a e in let (e, xs) := acts l e in (e, x :: xs)
  end.
Fixpoint slim_acts (l : list action) (e : slim_engine) : slim_engine * list answer :=
  match l with
  | [] => (e, [])
  | a :: l => let (e, x) := slim_act a e in let (e, xs) := slim_acts l e in (e, x :: xs)
  end.

Lemma map_get_full {A B} (f : A -> B) (l : list (str * A)) n : map_get n (map (fun p => (fst p, f (snd p))) l) = option_map f (map_get n l).
Proof. induction l as [|[k v] l IH]; cbn; [reflexivity|]. destruct (str_eqb n k); [reflexivity|exact IH]. Qed.
Lemma map_insert_full {A B} (f : A -> B) (l : list (str * A)) n x :
  map_insert n (f x) (map (fun p => (fst p, f (snd p))) l) = map (fun p => (fst p, f (snd p))) (map_insert n x l).
Proof. induction l as [|[k v] l IH]; cbn; [reflexivity|]. destruct (str_cmp n k); cbn; [reflexivity|reflexivity|now rewrite IH]. Qed.
Lemma map_remove_full {A B} (f : A -> B) (l : list (str * A)) n :
  map_remove n (map (fun p => (fst p, f (snd p))) l) = map (fun p => (fst p, f (snd p))) (map_remove n l).
Proof. induction l as [|[k v] l IH]; cbn; [reflexivity|]. destruct (str_eqb n k); cbn; [reflexivity|now rewrite IH]. Qed.

Lemma act_full a e : act a (full e) = (full (fst (slim_act a e)), snd (slim_act a e)).
Proof.
  destruct a as [n|f|n f|n|n s|n|n|s]; cbn [act slim_act fst snd]; try reflexivity.
  - unfold add_formatter, slim_add_formatter, set_functions, slim_set_functions, full; cbn. rewrite map_insert_full, map_get_full. destruct (map_get n (se_functions e)); reflexivity.
  - unfold remove_function, slim_remove_function, set_functions, slim_set_functions, full; cbn. rewrite map_remove_full, map_get_full. destruct (map_get n (se_functions e)); reflexivity.
  - unfold add_template, slim_add_template, engine_compile, slim_compile; cbn [en_searcher full]. destruct (compile_template (se_searcher e) s); reflexivity.
Qed.

(** C60.  An engine is made from the same delimiters in both builds (or is not), and
    whatever is then done with it, the answers are the same and the engines keep
    corresponding. *)
Theorem C60_engines sx l :
  match slim_with_syntax sx with
  | Ok e => engine_with_syntax sx = Ok (full e) /\
      acts l (full e) = (full (fst (slim_acts l e)), snd (slim_acts l e))
  | Err e => engine_with_syntax sx = Err e
  | Panic => engine_with_syntax sx = Panic
  | OutOfFuel => engine_with_syntax sx = OutOfFuel
  end.
Proof.
  unfold slim_with_syntax, engine_with_syntax. destruct (searcher_new sx) as [sr| | |]; cbn [bind]; try reflexivity.
  split; [reflexivity|]. generalize (mkslim sr fmt_default [] [] 64). induction l as [|a l IH]; intros e; [reflexivity|].
  cbn [acts slim_acts]. rewrite act_full. destruct (slim_act a e) as [e' x]. cbn [fst snd]. rewrite IH. now destruct (slim_acts l e').
Qed.
End Actions.

Section Renderings.
Context `{X : Ext}.
Variable i : slim_inner.

Lemma exec_full t ins pc st ex : slim_exec i t ins pc st ex = exec_instr (full_inner i) t ins pc st ex.
Proof.
  destruct ins; try reflexivity; cbn [slim_exec exec_instr]; apply rbind_ext; intros raw; cbn [ri_engine full_inner full en_functions]; rewrite map_get_full;
    destruct (map_get raw (se_functions (si_engine i))); reflexivity.
Qed.
Lemma one_full fuel t : forall pc st ex, slim_render_one i fuel t pc st ex = render_one (full_inner i) fuel t pc st ex.
Proof.
  induction fuel as [|fuel IH]; intros pc st ex; cbn [slim_render_one render_one]; [reflexivity|].
  destruct (nth_error (t_instrs t) pc) as [ins|]; [|reflexivity]. rewrite exec_full. apply rbind_ext. intros [pc' st' ex'|rs pc' st']; [apply IH|reflexivity].
Qed.
Lemma loop_full fuel : forall ts st h, slim_loop i fuel ts st h = render_loop (full_inner i) fuel ts st h.
Proof.
  induction fuel as [|fuel IH]; intros ts st h; (destruct ts as [|a rest]; cbn [slim_loop render_loop]; [reflexivity|]); [reflexivity|].
  rewrite one_full. apply rbind_ext. intros [[rs pc] st']. 
  apply rbind_ext. intros [[ts' st''] h']. change (slim_max_include_depth i) with (max_include_depth (full_inner i)).
  destruct (max_include_depth (full_inner i) <? N.of_nat (length ts'))%N; [reflexivity|apply IH].
Qed.

(** C60.  Rendering is the same in both builds. *)
Theorem C60_renderings g fuel :
  slim_to_string fuel i g = to_string fuel (full_inner i) g /\
  forall k w, slim_to_writer fuel i g k w = to_writer fuel (full_inner i) g k w.
Proof.
  assert (E : forall st, slim_render i fuel st = render (full_inner i) fuel st) by (intros st; unfold slim_render, render; apply loop_full).
  unfold slim_to_string, to_string, slim_to_writer, to_writer. split.
  - destruct (initial_stack g) as [st| | |]; cbn [bind]; try reflexivity. now rewrite E.
  - intros k w. destruct (initial_stack g) as [st| | |]; try reflexivity. now rewrite E.
Qed.

(** Without the feature no rendering ends in a filter error. *)
Definition nk {A} (r : res A) : Prop := match r with Err e => e_kind e <> KFilter | _ => True end.
Lemma nk_bind {A B} (x : res A) (f : A -> res B) : nk x -> (forall a, nk (f a)) -> nk (let* a := x in f a).
Proof. intros H Hf. destruct x as [a|e| |]; cbn [bind nk] in *; auto. Qed.
Lemma nk_index s sp : nk (@index_span error s sp).
Proof. unfold index_span, slice. destruct (_ && _); exact I. Qed.
Lemma nk_pretty s sp : nk (build_pretty s sp).
Proof.
  unfold build_pretty. destruct (to_ln_col _ _) as [ln col]. apply nk_bind; [apply nk_index|]. intros a. apply nk_bind; [|intros; exact I].
  destruct (nth_error _ ln); [exact I|]. destruct (hd_error _); exact I.
Qed.
Lemma nk_render {A} m s sp : nk (@err_render _ A m s sp).
Proof. unfold err_render. apply nk_bind; [apply nk_pretty|]. intros p. cbn. discriminate. Qed.
Lemma nk_format {A} m s sp : nk (@err_format _ A m s sp).
Proof. unfold err_format. apply nk_bind; [apply nk_pretty|]. intros p. cbn. discriminate. Qed.

Ltac nk_go :=
  repeat first
    [ exact I | apply nk_render | apply nk_format | apply nk_index | (apply nk_bind; [|intros ?])
    | match goal with |- nk (match ?x with _ => _ end) => destruct x end
    | match goal with |- nk (if ?b then _ else _) => destruct b end ].

Lemma nk_lookup s v m : nk (lookup s v m).
Proof. unfold lookup. nk_go. Qed.
Lemma nk_first (v : var) : nk (@var_first error v).
Proof. unfold var_first, unwrap. nk_go. Qed.
Lemma nk_var_span (v : var) : nk (@var_span error v).
Proof. unfold var_span, var_first, var_last, unwrap. nk_go. Qed.
Lemma nk_not_found {A} s v : nk (@err_not_found _ A s v).
Proof. unfold err_not_found. apply nk_bind; [apply nk_first|]. intros. apply nk_render. Qed.
Lemma nk_maybe s c v : nk (lookup_path_maybe s c v).
Proof.
  unfold lookup_path_maybe. generalize (cow_val c) true. induction v as [|m v IH]; intros x b; cbn; [exact I|].
  pose proof (nk_lookup s x m) as H. destruct (lookup s x m) as [[y|]|e| |]; auto; destruct b; auto; exact I.
Qed.
Lemma nk_path s c v : nk (lookup_path s c v).
Proof.
  unfold lookup_path. generalize (cow_val c). induction v as [|m v IH]; intros x; cbn; [exact I|].
  apply nk_bind; [apply nk_lookup|]. intros [y|]; [apply IH|exact I].
Qed.
Lemma nk_resolve s l : forall v, nk (resolve s v l).
Proof. induction l as [|m l IH]; intros v; cbn; [exact I|]. apply nk_bind; [apply nk_lookup|]. intros [y|]; [apply IH|exact I]. Qed.
Lemma nk_loop l s v : nk (loop_lookup_var l s v).
Proof.
  unfold loop_lookup_var, lookup_loop. apply nk_bind; [apply nk_first|]. intros m. nk_go; apply nk_resolve.
Qed.
Lemma nk_value_path s v : nk (value_path s v).
Proof. induction v as [|m v IH]; cbn; nk_go. exact IH. Qed.
Lemma nk_lookup_var st s v : nk (lookup_var st s v).
Proof.
  induction st as [|fr st IH]; cbn; [apply nk_not_found|]. destruct fr as [f|c|n c|l|].
  - apply nk_bind; [apply nk_value_path|]. intros p. destruct (f p); [exact I|]. apply nk_bind; [apply nk_var_span|]. intros. apply nk_render.
  - apply nk_bind; [apply nk_maybe|]. intros [x|]; [exact I|exact IH].
  - apply nk_bind; [apply nk_first|]. intros m. nk_go; [apply nk_path|exact IH].
  - apply nk_bind; [apply nk_loop|]. intros [x|]; [exact I|exact IH].
  - apply nk_not_found.
Qed.

Notation nkt := (rall nk).
Lemma nkt_bind {A B} (x : rt A) (f : A -> rt B) : nkt x -> (forall a, nkt (f a)) -> nkt (let% a := x in f a).
Proof.
  intros H Hf. induction x as [r|s o IHo e IHe]; cbn [rbind rall] in *; [|intuition].
  destruct r as [a|e| |]; cbn [rall]; auto; exact I.
Qed.
Lemma nkt_name {A} n (x : rt A) : nkt x -> nkt (name_err n x).
Proof.
  intros H. unfold name_err. induction x as [r|s o IHo e IHe]; cbn [rmap_err rall] in *; [|intuition].
  destruct r as [a|e| |]; auto. cbn in *. destruct n as [n|]; [|exact H]. unfold with_template_name. destruct (e_name e); exact H.
Qed.
Lemma nkt_run p f : (forall m, nk (f m)) -> nkt (run_fmt p f).
Proof. intros H. induction p as [|m|s o IHo e IHe]; cbn; auto. Qed.

Ltac nkt_go :=
  repeat first
    [ exact I | (apply nkt_bind; [|intros ?])
    | match goal with |- nkt (run_fmt _ _) => apply nkt_run; intros ? end
    | match goal with |- nkt (lift _) => unfold lift; cbn [rall] end
    | match goal with |- nkt (match ?x with _ => _ end) => destruct x end
    | match goal with |- nkt (if ?b then _ else _) => destruct b end
    | match goal with |- nkt (jump ?t _ _) => unfold jump end
    | match goal with |- nkt (RRet _) => cbn [rall] end
    | progress nk_go | apply nk_lookup_var ].

Lemma nkt_exec t ins pc st ex : nkt (slim_exec i t ins pc st ex).
Proof.
  destruct ins; cbn [slim_exec]; nkt_go; try (unfold unwrap, loop_new, last_loop_state, pop_loop_state, pop_var; nk_go).
  cbn [rall nk e_kind mk_fmt_error]. split; [exact I|]. discriminate.
Qed.
Lemma nkt_one fuel t : forall pc st ex, nkt (slim_render_one i fuel t pc st ex).
Proof.
  induction fuel as [|fuel IH]; intros pc st ex; cbn [slim_render_one]; [exact I|]. destruct (nth_error _ pc); [|nkt_go].
  apply nkt_bind; [apply nkt_exec|]. intros [pc' st' ex'|rs pc' st']; [apply IH|exact I].
Qed.
Lemma nkt_loop fuel : forall ts st h, nkt (slim_loop i fuel ts st h).
Proof.
  assert (G : forall s n h, nk (slim_get_template i s n h)) by (intros s n h; unfold slim_get_template; nk_go).
  induction fuel as [|fuel IH]; intros ts st h; (destruct ts as [|a rest]; cbn [slim_loop]; [exact I|]); [exact I|].
  apply nkt_bind; [apply nkt_name, nkt_one|]. intros [[rs pc] st']. apply nkt_bind.
  - destruct rs as [|n|n c].
    + destruct (ac_has_scope a); [|exact I]. nkt_go; unfold pop_scope, pop_boundary; nk_go.
    + apply nkt_bind; [apply nkt_name; cbn [lift rall]; apply G|]. intros [t' h']. exact I.
    + apply nkt_bind; [apply nkt_name; cbn [lift rall]; apply G|]. intros [t' h']. exact I.
  - intros [[ts' st''] h']. destruct (_ <? _)%N; [|apply IH]. cbn. discriminate.
Qed.
Lemma rall_run k (w : sk_state k) io (x : rt unit) : nkt x -> nk (snd (run k w io x)).
Proof.
  revert w io. induction x as [r|s o IHo e IHe]; intros w io H; cbn [run rall] in *; [exact H|].
  destruct H as [Ho He]. destruct (sk_write k w s) as [w' [code|]]; auto.
Qed.

(** C60.  Without the feature no rendering ends in a filter error (unless serializing the
    context did). *)
Theorem C60_no_filter_errors g fuel :
  (forall e, initial_stack g = Err e -> e_kind e <> KFilter) ->
  (forall e, slim_to_string fuel i g = Err e -> e_kind e <> KFilter) /\
  forall k w w' e, slim_to_writer fuel i g k w = (w', Err e) -> e_kind e <> KFilter.
Proof.
  intros Hg. unfold slim_to_string, slim_to_writer. split.
  - intros e H. destruct (initial_stack g) as [st|e0| |]; cbn [bind] in H; try discriminate H; [|apply Hg; congruence].
    pose proof (nkt_loop fuel [mkact (si_template i) (si_template_name i) 0 false] st []) as K. unfold slim_render in H.
    revert H. generalize (@nil byte). revert K. induction (slim_loop _ _ _ _ _) as [r|s o IHo er IHe]; intros K b H; cbn [rall run_string] in *.
    + destruct r as [[]|e'| |]; try discriminate H. injection H as <-. exact K.
    + destruct K as [Ko _]. exact (IHo Ko _ H).
  - intros k w w' e H. destruct (initial_stack g) as [st|e0| |]; try discriminate H; [|apply Hg; congruence].
    pose proof (rall_run k w None _ (nkt_loop fuel [mkact (si_template i) (si_template_name i) 0 false] st [])) as K. unfold slim_render in H.
    destruct (run k w None _) as [[w1 io] r]. cbn [snd] in K. destruct io as [code|]; destruct r as [[]|e'| |]; try discriminate H; injection H as <- <-; try exact K.
    cbn. discriminate.
Qed.
End Renderings.

Section Unused.
Context `{X : Ext}.
(** What renderings in the slim build end with. *)
Definition slim_renders (i : slim_inner) (g : globals) (r : res str) : Prop :=
  r <> OutOfFuel /\ exists n, forall fuel, n <= fuel -> slim_to_string fuel i g = r.
Definition slim_writes (i : slim_inner) (g : globals) (k : sink) (w : sk_state k) (p : sk_state k * res unit) : Prop :=
  snd p <> OutOfFuel /\ exists n, forall fuel, n <= fuel -> slim_to_writer fuel i g k w = p.

(** [s] is [e] without its filters. *)
Definition without_filters (e : engine) (s : slim_engine) : Prop :=
  se_default_formatter s = en_default_formatter e /\ se_templates s = en_templates e /\ se_max_include_depth s = en_max_include_depth e /\
  forall n, map_get n (se_functions s) = match map_get n (en_functions e) with Some (EFormatter f) => Some f | _ => None end.

(** C60.  A template that calls no filter, and that includes none that does, is rendered
    by an engine with filters as without the feature. *)
Theorem C60_no_filter_called i e origin ast_of g :
  statements (with_engine e (full_inner i)) origin ast_of -> without_filters e (si_engine i) ->
  (forall t n name f, nested (with_engine e (full_inner i)) ast_of (si_template i) (si_template_name i) t n ->
     calls (t_source t) (ast_of t) name -> map_get name (en_functions e) <> Some (EFilter f)) ->
  (forall r, renders (with_engine e (full_inner i)) g r <-> slim_renders i g r) /\
  forall k w p, writes (with_engine e (full_inner i)) g k w p <-> slim_writes i g k w p.
Proof.
  intros Ha (Hd & Ht & Hm & Hf) Hc.
  assert (Hp : forall t, provided (full_inner i) t -> provided (with_engine e (full_inner i)) t).
  { intros t [H|[H|(Hn & n & H)]]; [left; exact H|right; left; exact H|]. right. right. split; [exact Hn|]. exists n.
    cbn [full_inner ri_engine full en_templates with_engine] in *. now rewrite <- Ht. }
  assert (Hw : well_made (with_engine (full (si_engine i)) (with_engine e (full_inner i))) origin).
  { intros t H. exact (proj1 (Ha t (Hp t H))). }
  assert (Hu : agree_on_use (with_engine e (full_inner i)) (full (si_engine i)) ast_of).
  { split; [symmetry; exact Hd|]. split.
    - unfold max_include_depth. cbn [with_engine full_inner ri_max_include_depth ri_engine full en_max_include_depth]. now rewrite Hm.
    - intros t n Hn. split.
      + intros name Hcall. cbn [with_engine ri_engine full en_functions]. rewrite map_get_full, Hf. pose proof (Hc t n name) as Hno.
        destruct (map_get name (en_functions e)) as [[f|f]|]; try reflexivity. now destruct (Hno f Hn Hcall eq_refl).
      + intros _ name _. cbn [with_engine ri_engine full en_templates]. now rewrite Ht. }
  destruct (C35_only_what_is_used _ origin ast_of _ Ha Hw Hu g) as [R W].
  change (with_engine (full (si_engine i)) (with_engine e (full_inner i))) with (full_inner i) in R, W. split.
  - intros r. rewrite R. unfold renders, slim_renders. split; intros [H (n & K)]; (split; [exact H|exists n; intros fuel L]).
    + rewrite (proj1 (C60_renderings i g fuel)). now apply K.
    + rewrite <- (proj1 (C60_renderings i g fuel)). now apply K.
  - intros k w p. rewrite W. unfold writes, slim_writes. split; intros [H (n & K)]; (split; [exact H|exists n; intros fuel L]).
    + rewrite (proj2 (C60_renderings i g fuel)). now apply K.
    + rewrite <- (proj2 (C60_renderings i g fuel)). now apply K.
Qed.
End Unused.

Print Assumptions C60_engines.
Print Assumptions C60_renderings.
Print Assumptions C60_no_filter_errors.
Print Assumptions C60_no_filter_called.

(** ** Concrete cases *)
Section Cases.
Local Existing Instance ascii_ext.
Definition bang : formatter := fun v => FWrite (concat (display_chunks v) ++ s2b "!") FDone (FFail None).
Definition hi : string := "Hi {{ name | bang }}{% if age %}, {{ age }}{% endif %}".
Definition hi_actions : list action :=
  [ AAddFormatter (s2b "bang") bang; AAddTemplate (s2b "hi") (s2b hi); AAddTemplate (s2b "loud") (s2b "{{ name | upper | bang }}");
    AAddTemplate (s2b "no") (s2b "{% if"); ARemoveFunction (s2b "upper"); AAddFormatter (s2b "bang") bang; ASetDepth 3 ].
Definition slim_fresh : slim_engine := match slim_with_syntax default_syntax with Ok e => e | _ => mkslim [] fmt_default [] [] 0 end.
Definition hi_slim : slim_engine := fst (slim_acts hi_actions slim_fresh).
Definition hi_renderer (name : string) : slim_inner :=
  match slim_template (s2b name) hi_slim with
  | Some (n, t) => mksinner hi_slim t (Some n) None None
  | None => mksinner hi_slim (mktemplate [] []) None None None
  end.
Definition ann : globals := GBorrowed (VMap [(s2b "age", VInt 41); (s2b "name", VStr (s2b "Ann"))]).

(** Beside C60: adding, replacing and failing, in the build without filters. *)
Example C60_case_engines : slim_with_syntax default_syntax = Ok slim_fresh /\
  map (fun a => match a with Replaced k => (1, k) | Added (Ok _) => (2, None) | Added (Err _) => (3, None) | _ => (4, None) end) (snd (slim_acts hi_actions slim_fresh)) =
  [(1, None); (2, None); (2, None); (3, None); (1, None); (1, Some FnFormatter); (4, None)].
Proof. split; vm_compute; reflexivity. Qed.
(** A formatter is called; a filter is not known. *)
Example C60_case : slim_to_string 40 (hi_renderer "hi") ann = Ok (s2b "Hi Ann!, 41") /\
  exists p, slim_to_string 40 (hi_renderer "loud") ann = Err (mkerror KRender (Some (s2b "loud")) (Some (s2b "unknown filter")) (Some p)).
Proof. split; [vm_compute; reflexivity|]. eexists. vm_compute. reflexivity. Qed.

(** The same engine in the full crate, with a filter that "hi" does not call. *)
Definition hi_full : engine := fst (add_filter (s2b "upper") upper (full hi_slim)).
Lemma acts_for sx l : Forall (fun a => match a with AAddTemplate _ s => valid_utf8 s | _ => True end) l -> forall e, engine_for sx e -> engine_for sx (fst (acts l e)).
Proof.
  induction 1 as [|a l Ha _ IH]; intros e He; [exact He|]. cbn [acts].
  assert (K : engine_for sx (fst (act a e))).
  { destruct a as [n|f|n f|n|n s|n|n|s]; cbn [act fst].
    - now apply ef_depth.
    - now apply ef_default.
    - exact (ef_formatter sx n f e He).
    - exact (ef_remove_function sx n e He).
    - pose proof (ef_template sx n s e Ha He) as K. destruct (add_template n s e). exact K.
    - exact (ef_remove_template sx n e He).
    - exact He.
    - exact He. }
  destruct (act a e) as [e' x]. specialize (IH e' K). destruct (acts l e') as [e'' xs]. exact IH.
Qed.
Lemma acts_engine sx l e : slim_with_syntax sx = Ok e -> Forall (fun a => match a with AAddTemplate _ s => valid_utf8 s | _ => True end) l ->
  engine_for sx (full (fst (slim_acts l e))).
Proof.
  intros E Hl. pose proof (C60_engines sx l) as H. rewrite E in H. destruct H as [Hn Ha].
  assert (K : fst (acts l (full e)) = full (fst (slim_acts l e))) by now rewrite Ha. rewrite <- K. apply acts_for; [exact Hl|now apply ef_new].
Qed.
Lemma hi_valid : Forall (fun a => match a with AAddTemplate _ s => valid_utf8 s | _ => True end) hi_actions.
Proof. unfold hi_actions. repeat constructor; apply asciib_valid; vm_compute; reflexivity. Qed.
Lemma hi_full_for : engine_for default_syntax hi_full.
Proof. unfold hi_full. apply ef_filter. exact (acts_engine default_syntax hi_actions slim_fresh (proj1 C60_case_engines) hi_valid). Qed.
Lemma hi_full_renderer : with_engine hi_full (full_inner (hi_renderer "hi")) = renderer_of hi_full "hi".
Proof. vm_compute. reflexivity. Qed.
Notation ast := (canon (fun _ => default_syntax)).
Lemma hi_made : well_made (with_engine hi_full (full_inner (hi_renderer "hi"))) (fun _ => default_syntax).
Proof. rewrite hi_full_renderer. apply renderer_well_made; [exact hi_full_for|]. intros E. vm_compute in E. discriminate E. Qed.
Definition hi_body : scope := ltac:(let x := eval vm_compute in (ast (si_template (hi_renderer "hi"))) in exact x).
Lemma hi_ast : ast (si_template (hi_renderer "hi")) = hi_body. Proof. vm_compute. reflexivity. Qed.
Lemma hi_source : t_source (si_template (hi_renderer "hi")) = s2b hi. Proof. vm_compute. reflexivity. Qed.
Lemma nested_alone inner a t n t' n' : flat_map inc_names (a t) = [] -> nested inner a t n t' n' -> t' = t.
Proof. intros E H. destruct H as [t n|t n name t1 t' n' Hi Hr Hn]; [reflexivity|]. rewrite E in Hi. destruct Hi. Qed.
Lemma hi_without : without_filters hi_full (si_engine (hi_renderer "hi")).
Proof.
  split; [vm_compute; reflexivity|]. split; [vm_compute; reflexivity|]. split; [vm_compute; reflexivity|]. intros n.
  assert (E : en_functions hi_full = [(s2b "bang", EFormatter bang); (s2b "upper", EFilter upper)]) by (vm_compute; reflexivity).
  assert (E' : se_functions (si_engine (hi_renderer "hi")) = [(s2b "bang", bang)]) by (vm_compute; reflexivity).
  rewrite E, E'. cbn [map_get]. destruct (str_eqb n (s2b "bang")); [reflexivity|]. destruct (str_eqb n (s2b "upper")); reflexivity.
Qed.
Example C60_case_unused g : (forall r, renders (with_engine hi_full (full_inner (hi_renderer "hi"))) g r <-> slim_renders (hi_renderer "hi") g r) /\
  exists f, map_get (s2b "upper") (en_functions hi_full) = Some (EFilter f).
Proof.
  split; [|eexists; vm_compute; reflexivity].
  refine (proj1 (C60_no_filter_called (hi_renderer "hi") hi_full (fun _ => default_syntax) ast g (canon_statements _ _ hi_made) hi_without _)).
  intros t n name f Hn Hc. apply nested_alone in Hn; [|rewrite hi_ast; vm_compute; reflexivity]. subst t. rewrite hi_ast, hi_source in Hc.
  destruct Hc as (id & Hi & E).
  assert (K : Forall (fun r => r = @Ok error _ (s2b "bang")) (map (fun i => index_span (s2b hi) (id_span i)) (flat_map stmt_calls hi_body))).
  { vm_compute. constructor; [reflexivity|constructor]. }
  rewrite Forall_map, Forall_forall in K. specialize (K id Hi). rewrite K in E. injection E as <-.
  assert (E1 : map_get (s2b "bang") (en_functions hi_full) = Some (EFormatter bang)) by (vm_compute; reflexivity). rewrite E1. discriminate.
Qed.
End Cases.
