(** C52: user functions that have state are called in the order of the source. *)
From Verif Require Import Base Utf8 Ext Errors Syntax AhoCorasick SearchSpec SyntaxSpec Value Ast Lexer LexSpec Wp
  GrammarSpec Parser TokStream ParseProof AstOk Compiler CompileProof ParseMain Fmt Stack Filters Render Engine EngineSpec CompileFacts
  RenderSpec RenderProof RenderErr RenderMain RenderObs MapFacts Props2 Demo Calls CallSpec CallProof CallLink CallErr.

Section Props25.
Context `{X : Ext}.

(** [written ev inner origin ast_of]: the root template and every template an include can
    find, in whatever state the environment is, were compiled, [t] with the syntax
    [origin t]; [ast_of t] are the statements that the grammar derives from its source. *)
Definition written {S} (ev : env S) (inner : renderer_inner) (origin : template -> syntax) (ast_of : template -> scope) : Prop :=
  forall t, t = ri_template inner \/ c_named ev inner t -> template_of (origin t) t /\ derives (origin t) (t_source t) (ast_of t).

Lemma written_sourced origin ast_of t : template_of (origin t) t /\ derives (origin t) (t_source t) (ast_of t) ->
  sourced ast_of t.
Proof.
  intros ((Hu & Hc & Hv & e & He & Ec) & D). pose proof (engine_searcher _ _ He) as Hs.
  pose proof (derives_ok _ Hu _ Hv _ D) as Hok. split; [|exact Hok].
  assert (E2 : engine_compile (t_source t) e = Ok (mktemplate (t_source t) (cscope 0 (ast_of t)))).
  { apply (compile_iff _ Hu _ Hs _ Hv Hc). eauto. }
  rewrite Ec in E2. injection E2 as E2. rewrite E2 at 1. reflexivity.
Qed.

(** [acts ev inner st s p]: with enough steps, rendering [inner] with the stack [st] and
    the environment in state [s] leaves the environment in the state [fst p] and gives
    the result [snd p]. *)
Definition acts {S} (ev : env S) (inner : renderer_inner) (st : stack) (s : S) (p : S * res unit) : Prop :=
  exists n, forall fuel, n <= fuel -> x_render ev inner fuel st s = p.

(** C52.  For every writer, formatters, filters, value function and template function,
    with any state and whatever they answer: the machine makes the calls that the reading
    of the source from the first statement to the last makes, in that order, with the
    same arguments, no more and no fewer, and has the same result. *)
Theorem C52_calls_in_order {S} (ev : env S) inner origin ast_of st s :
  written ev inner origin ast_of -> acts ev inner st s (c_render ev inner ast_of st s).
Proof.
  intros H. apply x_render_spec.
  - intros t Ht. apply (written_sourced origin). apply H. now right.
  - apply (written_sourced origin). apply H. now left.
Qed.

(** Such statements exist as soon as the templates were compiled, and there are no
    others: [derives] gives one result (C08). *)
Theorem C52_statements {S} (ev : env S) inner origin :
  (forall t, t = ri_template inner \/ c_named ev inner t -> template_of (origin t) t) -> exists ast_of, written ev inner origin ast_of.
Proof.
  intros H.
  exists (fun t => match @searcher_new error (origin t) with
                   | Ok sr => match parse_template sr (t_source t) with Ok s => s | _ => [] end
                   | _ => [] end).
  intros t Hp. pose proof (H t Hp) as Ht. split; [exact Ht|]. destruct Ht as (Hu & Hc & Hv & e & He & Ec).
  pose proof (engine_searcher _ _ He) as Hs. rewrite Hs.
  apply (compile_iff _ Hu _ Hs _ Hv Hc) in Ec as (s & D & _).
  now rewrite (parse_complete _ Hu _ Hs _ Hv Hc s D).
Qed.

Lemma written_ast {S} (ev : env S) inner origin ast_of np : written ev inner origin ast_of ->
  (np = true -> forall t, t = ri_template inner \/ c_named ev inner t -> sharing_all false (ast_of t)) ->
  forall t, t = ri_template inner \/ c_named ev inner t ->
  Forall (stmt_ok (t_source t)) (ast_of t) /\ (ast_of t <> [] -> t_source t <> []) /\ (np = true -> sharing_all false (ast_of t)).
Proof.
  intros H Hn t Ht. split; [|split].
  - exact (proj2 (written_sourced origin ast_of t (H t Ht))).
  - destruct (H t Ht) as ((Hu & _ & Hv & _) & D). eapply derives_nonempty; eauto.
  - intros E. now apply Hn.
Qed.

(** Rendering ends if every call returns, also when the calls have effects; its errors
    come from one of the templates rendered and carry its name (C12, C28). *)
Theorem C52_returns {S} (ev : env S) inner origin ast_of st s :
  written ev inner origin ast_of -> calm ev false ->
  exists p, acts ev inner st s p /\
    match snd p with
    | Ok _ | Panic => True
    | Err e => e = depth_error inner \/
        exists t n, c_nested ev inner ast_of (ri_template inner) (ri_template_name inner) t n /\ raised t n e
    | OutOfFuel => False
    end.
Proof.
  intros H Hc. exists (c_render ev inner ast_of st s). split; [now apply C52_calls_in_order with (origin := origin)|].
  assert (G : eall (c_outcome ev inner ast_of false (ri_template inner) (ri_template_name inner)) (c_render ev inner ast_of st)).
  { apply c_render_fine; [exact Hc| |discriminate]. apply (written_ast ev inner origin); [exact H|discriminate]. }
  specialize (G s). destruct (c_render ev inner ast_of st s) as [s' [a|e| |]]; exact G || exact I.
Qed.

(** A panic can only come from a function of the user, or from the include in a [with]
    block (C13). *)
Theorem C13_with_effects_partial {S} (ev : env S) inner origin ast_of st s p :
  written ev inner origin ast_of -> calm ev true ->
  (forall t, t = ri_template inner \/ c_named ev inner t -> sharing_all false (ast_of t)) -> no_vars st ->
  acts ev inner st s p -> exists r, p = (fst p, r) /\ (r = Ok tt \/ exists e, r = Err e).
Proof.
  intros H Hc Hsh Hst (n & Hn). destruct (C52_calls_in_order ev inner origin ast_of st s H) as (m & Hm).
  assert (E : p = c_render ev inner ast_of st s). { rewrite <- (Hn (n + m)), <- (Hm (n + m)); auto; lia. }
  assert (G : eall (c_outcome ev inner ast_of true (ri_template inner) (ri_template_name inner)) (c_render ev inner ast_of st)).
  { apply c_render_fine; [exact Hc| |auto]. apply (written_ast ev inner origin); auto. }
  specialize (G s). rewrite <- E in G. exists (snd p). split; [now destruct p|]. destruct (snd p) as [[]|e| |]; cbn in G; auto; [eauto|discriminate|contradiction].
Qed.

(** The same stack with another value function. *)
Definition with_fn (f : value_fn) (st : stack) : stack := map (fun fr => match fr with FrValueFn _ => FrValueFn f | _ => fr end) st.

(** A variable asks the value function at most once, for its own path; whether it asks does
    not depend on the state.  If it does not ask, it has the value that it has with any
    value function without state (C19); if it asks, it would ask that function the same. *)
Theorem C52_value_function_asked_once {S} (ev : env S) st source v :
  (forall s f, x_lookup_var ev st source v s = (s, lookup_var (with_fn f st) source v)) \/
  (exists path, value_path source v = Ok path /\
     (forall f, lookup_var (with_fn f st) source v = 
                match f path with inl x => Ok (Owned x) | inr reason => let* sp := var_span v in err_render reason source sp end) /\
     forall s, exists r, x_lookup_var ev st source v s = (fst (ev_value ev s path), r) /\
       match snd (ev_value ev s path) with
       | Ok x => r = Ok (Owned x)
       | Err reason => r = (let* sp := var_span v in err_render reason source sp)
       | Panic => r = Panic
       | OutOfFuel => r = OutOfFuel
       end).
Proof.
  induction st as [|fr st IH]; [left; reflexivity|].
  destruct fr as [f|c|name c|l|]; cbn [x_lookup_var with_fn map lookup_var].
  - destruct (value_path source v) as [path|e| |] eqn:E.
    + right. exists path. split; [reflexivity|]. split.
      { intros f0. cbn [bind]. destruct (f0 path); reflexivity. }
      intros s. unfold ebind, eret, eask. cbn [efx].
      destruct (ev_value ev s path) as [s' [x|reason| |]]; cbn [efx fst snd]; try (eexists; split; reflexivity).
      exists (let* sp := var_span v in err_render reason source sp). split; [|reflexivity].
      destruct (var_span v) as [sp|? | |]; cbn [bind efx]; try reflexivity. unfold err_render. now destruct (build_pretty source sp).
    + left. intros s f0. reflexivity.
    + left. intros s f0. reflexivity.
    + left. intros s f0. reflexivity.
  - destruct (lookup_path_maybe source c v) as [[x|]|e| |]; try (left; intros s f; reflexivity). exact IH.
  - destruct (var_first v) as [first|e| |]; try (left; intros s f; reflexivity).
    unfold ebind, eret. cbn [efx bind].
    destruct (index_span source (access_span (mb_access first))) as [a|e| |]; cbn [efx bind]; try (left; intros s f; reflexivity).
    destruct (index_span source (id_span name)) as [b|e| |]; cbn [efx bind]; try (left; intros s f; reflexivity).
    destruct (str_eqb a b); [left; intros s f; reflexivity|exact IH].
  - destruct (loop_lookup_var l source v) as [[x|]|e| |]; try (left; intros s f; reflexivity). exact IH.
  - left. intros s f. reflexivity.
Qed.

(** Functions without state are the special case of Render.v: the other properties speak
    of these renderings. *)
Theorem C52_stateless inner g st k w :
  initial_stack g = Ok st -> exists vf, (forall f, In (FrValueFn f) st -> f = vf) /\
  forall fuel, exists w' err h r, x_render (stateless inner vf k) inner fuel st (w, None, []) = ((w', err, h), r) /\
    to_writer fuel inner g k w = (w', match err, r with Some code, Err _ => Err (mk_io_error code) | _, _ => r end).
Proof.
  intros E. assert (Hvf : exists vf, fns vf st).
  { destruct (initial_stack_shape _ _ E) as [(v & ->)|(f & ->)].
    - exists (fun _ => inr []). repeat constructor.
    - exists f. repeat constructor. }
  destruct Hvf as (vf & Hvf). exists vf. split.
  { intros f Hf. unfold fns in Hvf. rewrite Forall_forall in Hvf. apply (Hvf _ Hf). }
  intros fuel. destruct (render_link inner vf k fuel st w Hvf) as (h & Eh). unfold to_writer. rewrite E.
  destruct (run k w None (render inner fuel st)) as [[w' err] r]. cbn [on] in Eh. exists w', err, h, r. split; [exact Eh|].
  destruct err, r; reflexivity.
Qed.

(** Two environments that answer alike, through a relation between their states. *)
Section Alike.
Context {S1 S2 : Type}.
Variable R : S1 -> S2 -> Prop.
Definition alike {A B} (call1 : S1 -> S1 * outcome A B) (call2 : S2 -> S2 * outcome A B) : Prop :=
  forall s1 s2, R s1 s2 -> R (fst (call1 s1)) (fst (call2 s2)) /\ snd (call1 s1) = snd (call2 s2).
Definition answer_alike (ev1 : env S1) (ev2 : env S2) : Prop :=
  (forall x, alike (fun s => ev_write ev1 s x) (fun s => ev_write ev2 s x)) /\
  (forall f v, alike (fun s => ev_format ev1 s f v) (fun s => ev_format ev2 s f v)) /\
  (forall f v l, alike (fun s => ev_filter ev1 s f v l) (fun s => ev_filter ev2 s f v l)) /\
  (forall p, alike (fun s => ev_value ev1 s p) (fun s => ev_value ev2 s p)) /\
  (forall n, alike (fun s => ev_template ev1 s n) (fun s => ev_template ev2 s n)).
Variable ev1 : env S1.
Variable ev2 : env S2.
Hypothesis Hev : answer_alike ev1 ev2.
Variable inner : renderer_inner.

Lemma alike_ret {A} (r : res A) : alike (eret r) (eret r).
Proof. intros s1 s2 H. split; [exact H|reflexivity]. Qed.
Lemma alike_bind {A B} (x1 : eff S1 A) x2 (f1 : A -> eff S1 B) f2 : alike x1 x2 -> (forall a, alike (f1 a) (f2 a)) -> alike (ebind x1 f1) (ebind x2 f2).
Proof.
  intros Hx Hf s1 s2 H. unfold ebind. destruct (Hx s1 s2 H) as (H1 & H2). destruct (x1 s1) as [t1 r1], (x2 s2) as [t2 r2]. cbn [fst snd] in *. subst r2.
  destruct r1 as [a|e| |]; cbn [efx]; [apply Hf; exact H1|..]; split; auto.
Qed.
Lemma alike_ask {E A} (call1 : S1 -> S1 * outcome E A) call2 refused : alike call1 call2 -> alike (eask call1 refused) (eask call2 refused).
Proof.
  intros Hx s1 s2 H. unfold eask. destruct (Hx s1 s2 H) as (H1 & H2). destruct (call1 s1) as [t1 r1], (call2 s2) as [t2 r2]. cbn [fst snd] in *. subst r2.
  destruct r1; split; auto.
Qed.
Lemma alike_catch {A} f (x1 : eff S1 A) x2 : alike x1 x2 -> alike (ecatch f x1) (ecatch f x2).
Proof.
  intros Hx s1 s2 H. unfold ecatch. destruct (Hx s1 s2 H) as (H1 & H2). destruct (x1 s1) as [t1 r1], (x2 s2) as [t2 r2]. cbn [fst snd] in *. subst r2.
  destruct r1; split; auto.
Qed.
Lemma alike_write x : alike (fun s => ev_write ev1 s x) (fun s => ev_write ev2 s x). Proof. apply Hev. Qed.
Lemma alike_format f v : alike (fun s => ev_format ev1 s f v) (fun s => ev_format ev2 s f v). Proof. apply Hev. Qed.
Lemma alike_filter f v l : alike (fun s => ev_filter ev1 s f v l) (fun s => ev_filter ev2 s f v l). Proof. apply Hev. Qed.
Lemma alike_value p : alike (fun s => ev_value ev1 s p) (fun s => ev_value ev2 s p). Proof. apply Hev. Qed.
Lemma alike_template n : alike (fun s => ev_template ev1 s n) (fun s => ev_template ev2 s n). Proof. apply Hev. Qed.
Ltac ak := repeat first
  [ apply alike_ret
  | apply alike_bind; [|intros ?]
  | apply alike_catch
  | apply alike_ask
  | apply alike_write | apply alike_format | apply alike_filter | apply alike_value | apply alike_template
  | match goal with |- alike (match ?x with _ => _ end) _ => destruct x end
  | match goal with |- alike (if ?x then _ else _) _ => destruct x end
  | match goal with |- alike (let '_ := ?x in _) _ => destruct x end ].
Lemma alike_lookup source v : forall st, alike (x_lookup_var ev1 st source v) (x_lookup_var ev2 st source v).
Proof.
  induction st as [|fr st IH]; cbn [x_lookup_var]; [ak|]. destruct fr; ak; apply IH.
Qed.
Lemma alike_arg ty source st b : alike (x_get_arg ev1 ty source st b) (x_get_arg ev2 ty source st b).
Proof. destruct b; cbn [x_get_arg]; [apply alike_bind; [apply alike_lookup|intros ?]|]; ak. Qed.
Lemma alike_args source st : forall tys l, alike (x_get_args ev1 tys source st l) (x_get_args ev2 tys source st l).
Proof.
  induction tys as [|ty tys IH]; intros [|b l]; cbn [x_get_args]; try apply alike_ret.
  apply alike_bind; [apply alike_arg|intros ?]. apply alike_bind; [apply IH|intros ?]. apply alike_ret.
Qed.
Lemma alike_call f nm source name st c l : alike (x_call_filter ev1 f nm source name st c l) (x_call_filter ev2 f nm source name st c l).
Proof.
  unfold x_call_filter. apply alike_bind; [apply alike_ret|intros ?]. apply alike_bind; [apply alike_ret|intros ?].
  apply alike_bind; [apply alike_args|intros ?]. apply alike_ask, alike_filter.
Qed.
Lemma alike_exec t i pc st ex : alike (x_exec_instr ev1 inner t i pc st ex) (x_exec_instr ev2 inner t i pc st ex).
Proof.
  destruct i; cbn [x_exec_instr]; unfold x_jump, x_format;
    try (apply alike_bind; [apply alike_lookup|intros ?]); ak; try apply alike_lookup; try apply alike_args.
Qed.
Lemma alike_one : forall fuel t pc st ex, alike (x_render_one ev1 inner fuel t pc st ex) (x_render_one ev2 inner fuel t pc st ex).
Proof.
  induction fuel as [|fuel IH]; intros t pc st ex; cbn [x_render_one]; [apply alike_ret|].
  destruct (nth_error (t_instrs t) pc) as [i|].
  - apply alike_bind; [apply alike_exec|]. intros [pc' st' ex'|rs pc' st']; [apply IH|apply alike_ret].
  - destruct (pc =? _); apply alike_ret.
Qed.
Lemma alike_find source name : alike (x_get_template ev1 inner source name) (x_get_template ev2 inner source name).
Proof. unfold x_get_template. destruct (ri_template_fn inner); ak. Qed.
Lemma alike_loop : forall fuel ts st, alike (x_render_loop ev1 inner fuel ts st) (x_render_loop ev2 inner fuel ts st).
Proof.
  induction fuel as [|fuel IH]; intros [|a rest] st; cbn [x_render_loop]; try apply alike_ret.
  apply alike_bind; [apply alike_catch, alike_one|]. intros [[rs pc] st']. apply alike_bind.
  - destruct rs as [|name|name c].
    + ak.
    + apply alike_bind; [apply alike_catch, alike_find|intros ?]. apply alike_ret.
    + apply alike_bind; [apply alike_catch, alike_find|intros ?]. apply alike_ret.
  - intros [ts st2]. destruct (_ <? _)%N; [apply alike_ret|apply IH].
Qed.

(** The rendering depends on the answers alone. *)
Theorem C52_only_answers_matter fuel st : alike (x_render ev1 inner fuel st) (x_render ev2 inner fuel st).
Proof. apply alike_loop. Qed.
End Alike.

(** An environment that notes the calls it gets, the last first. *)
Inductive call := CWrite (x : str) | CFormat (which : option str) (v : value) | CFilter (name : str) (v : arg_val) (args : list arg_val)
| CValue (path : list vmember) | CTemplate (name : str).
Definition noted {S E A} (c : call) (f : S -> S * outcome E A) (s : S * list call) : (S * list call) * outcome E A :=
  let '(s', r) := f (fst s) in ((s', c :: snd s), r).
Definition recorded {S} (ev : env S) : env (S * list call) :=
  {| ev_write s x := noted (CWrite x) (fun s => ev_write ev s x) s;
     ev_format s f v := noted (CFormat f v) (fun s => ev_format ev s f v) s;
     ev_filter s f v l := noted (CFilter f v l) (fun s => ev_filter ev s f v l) s;
     ev_value s p := noted (CValue p) (fun s => ev_value ev s p) s;
     ev_template s n := noted (CTemplate n) (fun s => ev_template ev s n) s |}.

(** The list of calls, with their arguments, is the one of the reading of the source; and
    noting the calls changes nothing. *)
Theorem C52_recorded {S} (ev : env S) inner origin ast_of st s :
  written (recorded ev) inner origin ast_of ->
  acts (recorded ev) inner st (s, []) (c_render (recorded ev) inner ast_of st (s, [])) /\
  forall fuel, (fst (fst (x_render (recorded ev) inner fuel st (s, []))), snd (x_render (recorded ev) inner fuel st (s, []))) = x_render ev inner fuel st s.
Proof.
  intros H. split; [now apply C52_calls_in_order with (origin := origin)|]. intros fuel.
  assert (A : answer_alike (fun (p : S * list call) s => fst p = s) (recorded ev) ev).
  { unfold answer_alike, alike, recorded, noted. cbn [ev_write ev_format ev_filter ev_value ev_template].
    repeat apply conj; intros; subst;
      match goal with |- context [let '(_, _) := ?x in _] => destruct x end; auto. }
  destruct (C52_only_answers_matter _ _ _ A inner fuel st (s, []) s eq_refl) as (H1 & H2). rewrite H1, H2. now destruct (x_render ev inner fuel st s).
Qed.
End Props25.
Print Assumptions C52_calls_in_order.
Print Assumptions C52_statements.
Print Assumptions C52_returns.
Print Assumptions C13_with_effects_partial.
Print Assumptions C52_value_function_asked_once.
Print Assumptions C52_stateless.
Print Assumptions C52_only_answers_matter.
Print Assumptions C52_recorded.

Local Existing Instance ascii_ext.
(** Beside them: a filter that counts, a value function, a template function that answers
    from its state, and the calls of one rendering. *)
Definition count_filter : filter := mkfilter TyValue [TyValue; TyValue] (fun _ _ => inl VNone).
Definition same_filter : filter := mkfilter TyValue [] (fun _ _ => inl VNone).
Definition count_engine : engine :=
  match engine_new with Ok e => fst (add_filter (s2b "count") count_filter (fst (add_filter (s2b "same") same_filter e))) | _ => mkengine [] fmt_default [] [] 0 end.
Definition count_source := "a{{ x.y | count: u, 1 | same }}{% for i in l %}{% if i | count: i, v %}-{{ w }}{% endif %}{% endfor %}{% include ""p"" with k | count: m, n %}z"%string.
Definition count_compile (s : string) : template := match engine_compile (s2b s) count_engine with Ok t => t | _ => mktemplate [] [] end.
Definition count_inner : renderer_inner :=
  with_template_fn (fun _ _ => inr []) (template_renderer (count_compile count_source) count_engine).
(** The state counts the calls; [count] gives a map with the number of the call, or none
    if it is 13; the template depends on the number, too. *)
Definition q_of (n : nat) : value := VMap [(s2b "q", VInt (Z.of_nat n))].
Definition counting : env nat :=
  {| ev_write n x := (S n, Ok tt);
     ev_format n f v := (S n, Ok tt);
     ev_filter n f v l := (S n, if str_eqb f (s2b "count") then Ok (if n =? 13 then VNone else q_of n) else Ok (match v with AvValue v => v | _ => VNone end));
     ev_value n p := (S n, match p with [mkvmember _ (VAKey k)] => if str_eqb k (s2b "l") then Ok (VList [VInt 5; VInt 6]) else Ok (VInt (Z.of_nat n)) | _ => Ok (VInt (Z.of_nat n)) end);
     ev_template n x := (S n, Ok (count_compile (if Nat.even n then "[{{ q }}]" else "({{ q }})"))) |}.
Definition key (s : string) : vmember := mkvmember Direct (VAKey (s2b s)).
Definition value_of (s : string) : call := CValue [key s].
Definition int (n : Z) : arg_val := AvValue (VInt n).
Definition values : stack := [FrValueFn (fun _ => inr [])].

Example C52_case : exists n, x_render (recorded counting) count_inner 200 values (0, []) = ((n, rev
  [ CWrite (s2b "a"); CValue [key "x"; key "y"]; value_of "u"; CFilter (s2b "count") (int 1) [int 2; int 1];
    CFilter (s2b "same") (AvValue (q_of 3)) []; CFormat None (q_of 3);
    value_of "l";
    value_of "v"; CFilter (s2b "count") (int 5) [int 5; int 7]; CWrite (s2b "-"); value_of "w"; CFormat None (VInt 10);
    value_of "v"; CFilter (s2b "count") (int 6) [int 6; int 12];
    value_of "k"; value_of "m"; value_of "n"; CFilter (s2b "count") (int 14) [int 15; int 16];
    CTemplate (s2b "p"); CWrite (s2b "["); CFormat None (VInt 17); CWrite (s2b "]"); CWrite (s2b "z") ]), Ok tt).
Proof. eexists. vm_compute. reflexivity. Qed.

Lemma count_for : engine_for default_syntax count_engine.
Proof.
  unfold count_engine. destruct engine_new as [e| | |] eqn:E; try (vm_compute in E; discriminate).
  apply ef_filter, ef_filter. now apply ef_new.
Qed.
Lemma count_template s : asciib (s2b s) = true -> match engine_compile (s2b s) count_engine with Ok t => str_eqb (t_source t) (s2b s) | _ => false end = true ->
  template_of default_syntax (count_compile s).
Proof.
  intros Ha E. unfold count_compile. destruct (engine_compile (s2b s) count_engine) as [t| | |] eqn:Ec; try discriminate E.
  apply str_eqb_eq in E. split; [exact default_user_syntax|]. split; [apply default_trims_ok|]. rewrite E. split; [now apply asciib_valid|].
  exists count_engine. split; [exact count_for|]. exact Ec.
Qed.
Lemma count_written : exists ast_of, written (recorded counting) count_inner (fun _ => default_syntax) ast_of.
Proof.
  apply C52_statements. intros t [->|[(_ & s & s' & n & E)|(E & _)]].
  - apply (count_template count_source); vm_compute; reflexivity.
  - cbn [recorded ev_template noted counting] in E. injection E as _ <-.
    destruct (Nat.even (fst s)); apply count_template; vm_compute; reflexivity.
  - discriminate E.
Qed.
Lemma count_calm np : calm (recorded counting) np.
Proof. unfold calm, recorded, noted, counting. cbn. split; [exact (fun _ _ => I)|]. split; [exact (fun _ _ _ => I)|].
  split; [intros s f v l; destruct (str_eqb _ _); exact I|]. split; [|exact (fun _ _ => I)].
  intros s [|[op [i|k]] [|m p]]; try exact I. destruct (str_eqb _ _); exact I.
Qed.
(** The hypotheses of all the theorems hold of it together. *)
Example C52_hypotheses : exists ast_of, written (recorded counting) count_inner (fun _ => default_syntax) ast_of /\ calm (recorded counting) true /\
  (forall t, t = ri_template count_inner \/ c_named (recorded counting) count_inner t -> sharing_all false (ast_of t)) /\ no_vars values.
Proof.
  destruct count_written as (ast_of & H). exists ast_of. split; [exact H|]. split; [apply count_calm|]. split; [|repeat constructor].
  intros t Ht. destruct (H t Ht) as ((_ & _ & Hv & _) & D).
  apply (proj1 (C08_accepted_iff_grammatical _ _ _ default_user_syntax (default_trims_ok _) count_for Hv)) in D.
  revert D. generalize (ast_of t). intros l D.
  destruct Ht as [->|[(_ & s & s' & n & E)|(E & _)]].
  - vm_compute in D. injection D as D. rewrite <- D. vm_compute. auto 20.
  - cbn [recorded ev_template noted counting] in E. injection E as _ <-.
    destruct (Nat.even (fst s)); vm_compute in D; injection D as D; rewrite <- D; vm_compute; auto.
  - discriminate E.
Qed.
(** It stops where a function refuses, and nothing is called after. *)
Definition refusing : env nat :=
  {| ev_write n x := (S n, Ok tt); ev_format n f v := (S n, Ok tt);
     ev_filter n f v l := (S n, if 7 <? n then Err (s2b "enough") else Ok (q_of n)); ev_value := ev_value counting; ev_template := ev_template counting |}.
Example C52_refusal : exists n e, x_render (recorded refusing) count_inner 200 values (0, []) = ((n, rev
  [ CWrite (s2b "a"); CValue [key "x"; key "y"]; value_of "u"; CFilter (s2b "count") (int 1) [int 2; int 1];
    CFilter (s2b "same") (AvValue (q_of 3)) []; CFormat None (q_of 4);
    value_of "l";
    value_of "v"; CFilter (s2b "count") (int 5) [int 5; int 7] ]), Err e) /\ e_reason e = Some (s2b "enough") /\ e_kind e = KFilter.
Proof. do 2 eexists. split; [vm_compute; reflexivity|]. split; reflexivity. Qed.
