(** Functions without state are one kind of environment: with them the machine of Calls.v
    does what the machine of Render.v does. *)
From Verif Require Import Base Utf8 Ext Errors Syntax Value Ast Fmt Stack Filters Render Calls.

(** A formatter that runs by itself on a writer. *)
Fixpoint prog_run (k : sink) (w : sk_state k) (err : option N) (p : fmt_prog) : sk_state k * option N * outcome (option str) unit :=
  match p with
  | FDone => (w, err, Ok tt)
  | FFail m => (w, err, Err m)
  | FWrite s ok er =>
    match sk_write k w s with
    | (w', None) => prog_run k w' err ok
    | (w', Some e) => prog_run k w' (Some e) er
    end
  end.

(** The environment made of a writer and the functions of a renderer (and a value
    function).  Its state: the one of the writer, its last error, and the names the
    template function was asked for. *)
Definition stateless (inner : renderer_inner) (vf : value_fn) (k : sink) : env (sk_state k * option N * list str) :=
  {| ev_write '(w, err, h) s :=
       match sk_write k w s with
       | (w', None) => ((w', err, h), Ok tt)
       | (w', Some e) => ((w', Some e, h), Err tt)
       end;
     ev_format '(w, err, h) which v :=
       let p := match which with
                | None => en_default_formatter (ri_engine inner) v
                | Some n => match map_get n (en_functions (ri_engine inner)) with Some (EFormatter f) => f v | _ => FDone end
                end in
       let '(w', err', r) := prog_run k w err p in ((w', err', h), r);
     ev_filter s n recv args :=
       (s, match map_get n (en_functions (ri_engine inner)) with
           | Some (EFilter f) => match fl_run f recv args with inl v => Ok v | inr msg => Err msg end
           | _ => Panic
           end);
     ev_value s path := (s, match vf path with inl v => Ok v | inr msg => Err msg end);
     ev_template '(w, err, h) n :=
       match ri_template_fn inner with
       | Some f => match f h n with inl t => ((w, err, n :: h), Ok t) | inr e => ((w, err, h), Err e) end
       | None => ((w, err, h), Panic)
       end |}.

Section Link.
Context `{X : Ext}.
Variable inner : renderer_inner.
Variable vf : value_fn.
Variable k : sink.
Notation ev := (stateless inner vf k).
Notation ST := (sk_state k * option N * list str)%type.

(** The value function of the stack, if any, is [vf]. *)
Definition fns (st : stack) : Prop := Forall (fun fr => match fr with FrValueFn f => f = vf | _ => True end) st.

Lemma x_lookup_pure st source v (s : ST) : fns st -> x_lookup_var ev st source v s = (s, lookup_var st source v).
Proof.
  induction 1 as [|fr st Hf Hst IH]; [reflexivity|]. destruct fr as [f|c|name c|l|]; cbn [x_lookup_var lookup_var]; unfold ebind, eret.
  - subst f. destruct (value_path source v); cbn [efx bind]; try reflexivity. unfold eask. cbn [ev_value stateless].
    destruct (vf _); cbn [efx]; [reflexivity|]. destruct (var_span v); cbn [bind]; try reflexivity. unfold err_render. now destruct (build_pretty _ _).
  - destruct (lookup_path_maybe source c v) as [[x|]| | |]; cbn [efx bind]; auto.
  - destruct (var_first v) as [m| | |]; cbn [efx bind]; auto. destruct (index_span source _); cbn [efx bind]; auto.
    destruct (index_span source (id_span name)); cbn [efx bind]; auto. destruct (str_eqb _ _); auto.
  - destruct (loop_lookup_var l source v) as [[x|]| | |]; cbn [efx bind]; auto.
  - reflexivity.
Qed.
Lemma x_get_arg_pure t source st a (s : ST) : fns st -> x_get_arg ev t source st a s = (s, get_arg t source st a).
Proof.
  intros H. destruct a as [v|x sp]; cbn [x_get_arg get_arg]; unfold ebind, eret; [|reflexivity].
  rewrite (x_lookup_pure st source v s H). destruct (lookup_var st source v); reflexivity.
Qed.
Lemma x_get_args_pure source st : fns st -> forall tys l (s : ST), x_get_args ev tys source st l s = (s, get_args tys source st l).
Proof.
  intros H. induction tys as [|t tys IH]; intros [|a l] s; cbn [x_get_args get_args]; unfold ebind, eret; try reflexivity.
  rewrite (x_get_arg_pure t source st a s H). destruct (get_arg t source st a); cbn [efx bind]; try reflexivity.
  rewrite IH. destruct (get_args tys source st l); reflexivity.
Qed.
Lemma x_call_pure f nm source name st c l (s : ST) : fns st -> map_get nm (en_functions (ri_engine inner)) = Some (EFilter f) ->
  x_call_filter ev f nm source name st c l s = (s, call_filter f source name st c l).
Proof.
  intros H Em. unfold x_call_filter, call_filter, ebind, eret. destruct (check_args _ source name l); cbn [efx bind]; try reflexivity.
  destruct (from_cow_mut (fl_recv f) c) as [r|e]; cbn [efx bind].
  - rewrite (x_get_args_pure source st H). destruct (get_args _ source st l); cbn [efx bind]; try reflexivity.
    unfold eask. cbn [ev_filter stateless]. rewrite Em. now destruct (fl_run f r _).
  - destruct (err_expected_val e source (id_span name)) eqn:E; cbn [efx bind]; try reflexivity.
    destruct e; cbn in E; try discriminate E; unfold err_render in E; destruct (build_pretty _ _); discriminate E.
Qed.

(** A tree run on the writer, with the names asked for. *)
Definition on (h : list str) {A} (p : sk_state k * option N * res A) : ST * res A := let '(w, err, r) := p in ((w, err, h), r).
Lemma run_rbind {A B} (x : rt A) (f : A -> rt B) : forall w err, run k w err (rbind x f) =
  match run k w err x with
  | (w', err', Ok a) => run k w' err' (f a)
  | (w', err', Err e) => (w', err', Err e)
  | (w', err', Panic) => (w', err', Panic)
  | (w', err', OutOfFuel) => (w', err', OutOfFuel)
  end.
Proof.
  induction x as [[a|e| |]|s o IHo e IHe]; intros w err; cbn [rbind run]; try reflexivity. destruct (sk_write k w s) as [w' [c|]]; auto.
Qed.
Lemma run_name {A} n (x : rt A) : forall w err, run k w err (name_err n x) =
  match run k w err x with
  | (w', err', Err e) => (w', err', Err (match n with Some s => with_template_name e s | None => e end))
  | p => p
  end.
Proof.
  unfold name_err. induction x as [[a|e| |]|s o IHo e IHe]; intros w err; cbn [rmap_err run]; try reflexivity. destruct (sk_write k w s) as [w' [c|]]; auto.
Qed.
Lemma run_fmt_prog (on_err : option str -> res unit) p : forall w err, run k w err (run_fmt p on_err) =
  match prog_run k w err p with
  | (w', err', Ok a) => (w', err', Ok a)
  | (w', err', Err m) => (w', err', on_err m)
  | (w', err', Panic) => (w', err', Panic)
  | (w', err', OutOfFuel) => (w', err', OutOfFuel)
  end.
Proof. induction p as [|m|s o IHo e IHe]; intros w err; cbn [run_fmt run prog_run]; try reflexivity. destruct (sk_write k w s) as [w' [c|]]; auto. Qed.
Lemma efx_on h {A B} (p : sk_state k * option N * res A) (f : A -> eff ST B) (g : A -> rt B) :
  (forall a w err, snd p = Ok a -> f a (w, err, h) = on h (run k w err (g a))) ->
  efx (on h p) f = on h (match p with
    | (w', err', Ok a) => run k w' err' (g a)
    | (w', err', Err e) => (w', err', Err e)
    | (w', err', Panic) => (w', err', Panic)
    | (w', err', OutOfFuel) => (w', err', OutOfFuel)
    end).
Proof. intros H. destruct p as [[w err] [a|e| |]]; cbn [on efx]; try reflexivity. now apply H. Qed.
(** A computation of the one machine that is the one of the other. *)
Definition same {A} (h : list str) (x : eff ST A) (y : rt A) : Prop := forall w err, x (w, err, h) = on h (run k w err y).
Lemma same_ret {A} h (r : res A) : same h (eret r) (RRet r).
Proof. intros w err. reflexivity. Qed.
Lemma same_bind {A B} h x (y : rt A) (f : A -> eff ST B) g : same h x y -> (forall a, same h (f a) (g a)) -> same h (ebind x f) (rbind y g).
Proof. intros H1 H2 w err. unfold ebind. rewrite H1, run_rbind. apply efx_on. intros a w' err' _. apply H2. Qed.
Lemma same_format h which (v : value) source sp p :
  p = match which with
      | None => en_default_formatter (ri_engine inner) v
      | Some n => match map_get n (en_functions (ri_engine inner)) with Some (EFormatter f) => f v | _ => FDone end
      end -> same h (x_format ev which v source sp) (run_fmt p (fun m => err_format m source sp)).
Proof.
  intros -> w err. rewrite run_fmt_prog. unfold x_format, eask. cbn [ev_format stateless].
  destruct (prog_run k w err _) as [[w' err'] [a|m| |]]; reflexivity.
Qed.
Lemma same_jump h j st ex : same h (@x_jump ST j st ex) (jump j st ex).
Proof. destruct j; intros w err; reflexivity. Qed.
Lemma same_lift {A} h (x : eff ST A) r : (forall s, x s = (s, r)) -> same h x (lift r).
Proof. intros H w err. rewrite H. reflexivity. Qed.

Lemma same_filter h f nm source name st c l : fns st -> map_get nm (en_functions (ri_engine inner)) = Some (EFilter f) ->
  same h (ecatch (fun e => err_enrich e source (id_span name)) (x_call_filter ev f nm source name st c l))
    (lift (match call_filter f source name st c l with Err e => err_enrich e source (id_span name) | r => r end)).
Proof. intros H Em. apply same_lift. intros s. unfold ecatch. rewrite (x_call_pure f nm source name st c l s H Em). now destruct (call_filter _ _ _ _ _ _). Qed.
Lemma same_exec h t i pc st ex : fns st -> same h (x_exec_instr ev inner t i pc st ex) (exec_instr inner t i pc st ex).
Proof.
  intros H. destruct i; cbn [x_exec_instr exec_instr]; repeat first
    [ apply same_ret | apply same_jump | apply (same_bind h (eret _) (lift _)); [apply same_ret|intros ?]
    | match goal with |- same _ (if ?b then _ else _) _ => destruct b end
    | match goal with |- same _ (match ?l with Some _ => _ | None => _ end) _ => is_var l; destruct l end ].
  - apply same_bind; [now apply same_format|]. intros u. apply same_ret.
  - intros w err. cbn [run]. unfold ebind, eask, eret. cbn [ev_write stateless]. destruct (sk_write k w a) as [w' [c|]]; reflexivity.
  - destruct (map_get a (en_functions (ri_engine inner))) as [[f|f]|] eqn:Em.
    + apply (same_bind h (eret _) (lift _)); [apply same_ret|]. intros c. apply same_bind; [|intros u; apply same_ret].
      apply same_format. now rewrite Em.
    + apply (same_bind h (eret _) (lift _)); [apply same_ret|]. intros c. apply same_bind; [now apply same_filter|]. intros v.
      apply same_bind; [now apply same_format|]. intros u. apply same_ret.
    + apply same_ret.
  - destruct (iterate a); [apply same_ret|]. apply (same_bind h (eret _) (lift _)); [apply same_ret|]. intros st'. apply same_jump.
  - apply same_bind; [apply same_lift; intros s; now apply x_lookup_pure|]. intros c. destruct ex; apply same_ret.
  - destruct (map_get a0 (en_functions (ri_engine inner))) as [[f|f]|] eqn:Em; try apply same_ret.
    apply (same_bind h (eret _) (lift _)); [apply same_ret|]. intros c. apply same_bind; [now apply same_filter|]. intros v. apply same_ret.
Qed.
(** Instructions leave the value function of the stack alone. *)
Definition next_stack (n : next) : stack := match n with NGo _ st _ => st | NStop _ _ st => st end.
Lemma fns_cons fr st : fns (fr :: st) -> fns st.
Proof. now inversion 1. Qed.
Lemma fns_exec t i pc st ex w err h s' n : fns st -> x_exec_instr ev inner t i pc st ex (w, err, h) = (s', Ok n) -> fns (next_stack n).
Proof.
  intros H. 
  assert (J : forall j st' ex' s s' n, fns st' -> @x_jump ST j st' ex' s = (s', Ok n) -> fns (next_stack n)).
  { intros [j|] st' ex' s s1 n' H' E; cbn in E; [|discriminate E]. injection E as <- <-. exact H'. }
  assert (R : forall st' ex' pc' (s s' : ST) n, fns st' -> (s, @Ok error _ (NGo pc' st' ex')) = (s', Ok n) -> fns (next_stack n)).
  { intros st' ex' pc' s s1 n' H' E. injection E as <- <-. exact H'. }
  assert (B : forall A (x : eff ST A) (f : A -> eff ST next) s, ebind x f s = (s', Ok n) -> exists a s1, x s = (s1, Ok a) /\ f a s1 = (s', Ok n)).
  { intros A x f s E. unfold ebind in E. destruct (x s) as [s1 [a|e| |]]; cbn in E; try discriminate E. eauto. }
  assert (P : forall st', @pop_loop_state st = Ok st' \/ @pop_var st = Ok st' -> fns st').
  { intros st' [E|E]; destruct st as [|[]]; cbn in E; try discriminate E; injection E as <-; now apply fns_cons in H. }
  assert (C : forall fr, (match fr with FrValueFn f => f = vf | _ => True end) -> fns (fr :: st)).
  { intros fr Hf. constructor; assumption. }
  destruct i; cbn [x_exec_instr]; intros E.
  - exact (J _ _ _ _ _ _ H E).
  - apply B in E as (c & s1 & _ & E). destruct (as_bool (cow_val c)); [exact (J _ _ _ _ _ _ H E)|exact (R _ _ _ _ _ _ H E)].
  - apply B in E as (c & s1 & _ & E). destruct (negb (as_bool (cow_val c))); [exact (J _ _ _ _ _ _ H E)|exact (R _ _ _ _ _ _ H E)].
  - apply B in E as (c & s1 & _ & E). apply B in E as (u & s2 & _ & E). exact (R _ _ _ _ _ _ H E).
  - apply B in E as (c & s1 & _ & E). apply B in E as (u & s2 & _ & E). exact (R _ _ _ _ _ _ H E).
  - apply B in E as (nm & s1 & _ & E). destruct (map_get nm _) as [[f|f]|].
    + apply B in E as (c & s2 & _ & E). apply B in E as (u & s3 & _ & E). exact (R _ _ _ _ _ _ H E).
    + apply B in E as (c & s2 & _ & E). apply B in E as (v & s3 & _ & E). apply B in E as (u & s4 & _ & E). exact (R _ _ _ _ _ _ H E).
    + unfold eret, err_render in E. destruct (build_pretty _ _); discriminate E.
  - apply B in E as (c & s1 & _ & E). apply B in E as (l & s2 & _ & E). exact (R _ _ _ _ _ _ (C (FrLoop l) I) E).
  - apply B in E as (l & s1 & _ & E). destruct (iterate l) as [l'|].
    + refine (R _ _ _ _ _ _ _ E). constructor; [exact I|]. destruct st; [constructor|]. now apply fns_cons in H.
    + apply B in E as (st' & s2 & Es & E). unfold eret in Es. injection Es as _ Es. exact (J _ _ _ _ _ _ (P st' (or_introl Es)) E).
  - apply B in E as (c & s1 & _ & E). exact (R _ _ _ _ _ _ (C (FrVar _ c) I) E).
  - apply B in E as (st' & s2 & Es & E). unfold eret in Es. injection Es as _ Es. exact (R _ _ _ _ _ _ (P st' (or_intror Es)) E).
  - injection E as <- <-. exact H.
  - apply B in E as (c & s1 & _ & E). injection E as <- <-. exact H.
  - apply B in E as (c & s1 & _ & E). destruct ex; [discriminate E|]. exact (R _ _ _ _ _ _ H E).
  - destruct ex; [discriminate E|]. exact (R _ _ _ _ _ _ H E).
  - apply B in E as (nm & s1 & _ & E). destruct (map_get nm _) as [[f|f]|].
    + unfold eret, err_render in E. destruct (build_pretty _ _); discriminate E.
    + apply B in E as (c & s2 & _ & E). apply B in E as (v & s3 & _ & E). exact (R _ _ _ _ _ _ H E).
    + unfold eret, err_render in E. destruct (build_pretty _ _); discriminate E.
Qed.

Lemma same_one h fuel : forall t pc st ex, fns st ->
  same h (x_render_one ev inner fuel t pc st ex) (render_one inner fuel t pc st ex).
Proof.
  induction fuel as [|fuel IH]; intros t pc st ex H; cbn [x_render_one render_one]; [apply same_ret|].
  destruct (nth_error (t_instrs t) pc) as [i|]; [|destruct (_ =? _); apply same_ret].
  intros w err. unfold ebind. rewrite run_rbind. pose proof (same_exec h t i pc st ex H w err) as E. pose proof (fns_exec t i pc st ex w err h) as F.
  rewrite E in F |- *. destruct (run k w err (exec_instr inner t i pc st ex)) as [[w' err'] [n|e| |]]; cbn [on efx]; try reflexivity.
  specialize (F _ _ H eq_refl). destruct n as [pc' st' ex'|rs pc' st']; cbn [next_stack] in F; [now apply IH|reflexivity].
Qed.
Lemma fns_one fuel : forall t pc st ex s s' rs pc' st', fns st -> x_render_one ev inner fuel t pc st ex s = (s', Ok (rs, pc', st')) -> fns st'.
Proof.
  induction fuel as [|fuel IH]; intros t pc st ex s s' rs pc' st' H E; cbn [x_render_one] in E; [discriminate E|].
  destruct (nth_error (t_instrs t) pc) as [i|].
  - unfold ebind in E. destruct s as [[w err] h]. destruct (x_exec_instr ev inner t i pc st ex (w, err, h)) as [s1 [n|e| |]] eqn:Ex; cbn [efx] in E; try discriminate E.
    pose proof (fns_exec t i pc st ex w err h s1 n H Ex) as F. destruct n as [pc1 st1 ex1|rs1 pc1 st1]; cbn [next_stack] in F.
    + exact (IH _ _ _ _ _ _ _ _ _ F E).
    + unfold eret in E. injection E as <- <- <- <-. exact F.
  - destruct (_ =? _); [|discriminate E]. unfold eret in E. injection E as <- <- <- <-. exact H.
Qed.
Lemma same_name {A} h n (x : eff ST A) y : same h x y -> same h (x_name_err n x) (name_err n y).
Proof. intros H w err. unfold x_name_err, ecatch. rewrite H, run_name. destruct (run k w err y) as [[w' err'] [a|e| |]]; reflexivity. Qed.

(** The template function is asked, and remembers. *)
Lemma find_link source name tname w err h :
  x_name_err tname (x_get_template ev inner source name) (w, err, h) =
  match run k w err (name_err tname (lift (get_template inner source name h))) with
  | (w', err', Ok (t, h')) => ((w', err', h'), Ok t)
  | (w', err', Err e) => ((w', err', h), Err e)
  | (w', err', Panic) => ((w', err', h), Panic)
  | (w', err', OutOfFuel) => ((w', err', h), OutOfFuel)
  end.
Proof.
  rewrite run_name. unfold x_name_err, ecatch, x_get_template, get_template, lift, eask, eret. cbn [run ev_template stateless].
  destruct (ri_template_fn inner) as [f|].
  - destruct (f h (as_name name)) as [t|e]; [reflexivity|]. unfold err_render. now destruct (build_pretty _ _).
  - destruct (map_get (as_name name) (en_templates (ri_engine inner))); [reflexivity|]. unfold err_render. now destruct (build_pretty _ _).
Qed.

Lemma loop_link fuel : forall ts st h w err, fns st ->
  exists h', x_render_loop ev inner fuel ts st (w, err, h) = on h' (run k w err (render_loop inner fuel ts st h)).
Proof.
  induction fuel as [|fuel IH]; intros [|a rest] st h w err H; try (exists h; reflexivity).
  cbn [x_render_loop render_loop]. unfold ebind at 1. rewrite run_rbind.
  pose proof (same_name h (ac_name a) _ _ (same_one h fuel (ac_template a) (ac_pc a) st None H) w err) as E1.
  rewrite E1. 
  assert (F : forall w' err' rs pc st', run k w err (name_err (ac_name a) (render_one inner fuel (ac_template a) (ac_pc a) st None)) = (w', err', Ok (rs, pc, st')) -> fns st').
  { intros w' err' rs pc st' E. rewrite E in E1. unfold x_name_err, ecatch in E1.
    destruct (x_render_one ev inner fuel (ac_template a) (ac_pc a) st None (w, err, h)) as [s1 [[[rs1 pc1] st1]|e| |]] eqn:Ex; cbn [on] in E1; try discriminate E1.
    injection E1 as _ -> -> ->. exact (fns_one _ _ _ _ _ _ _ _ _ _ H Ex). }
  destruct (run k w err (name_err (ac_name a) (render_one inner fuel (ac_template a) (ac_pc a) st None))) as [[w1 err1] [[[rs pc] st1]|e| |]];
    cbn [on efx]; try (exists h; reflexivity).
  specialize (F _ _ _ _ _ eq_refl).
  set (a' := mkact (ac_template a) (ac_name a) pc (ac_has_scope a)).
  assert (T : forall ts st h w err, fns st -> exists h',
     (if (max_include_depth inner <? N.of_nat (length ts))%N then eret (err_max_include_depth (max_include_depth inner)) else x_render_loop ev inner fuel ts st) (w, err, h) =
     on h' (run k w err (if (max_include_depth inner <? N.of_nat (length ts))%N then lift (err_max_include_depth (max_include_depth inner)) else render_loop inner fuel ts st h))).
  { intros ts st2 h2 w2 err2 H2. destruct (_ <? _)%N; [exists h2; reflexivity|]. now apply IH. }
  unfold ebind at 1. rewrite run_rbind. destruct rs as [|name|name g].
  - destruct (ac_has_scope a').
    + unfold lift, ebind, eret. destruct (pop_scope st1) as [st2| | |] eqn:E2; cbn [efx rbind run]; try (exists h; reflexivity).
      destruct (pop_boundary st2) as [st3| | |] eqn:E3; cbn [efx rbind run]; try (exists h; reflexivity).
      apply T. assert (F2 : fns st2) by (clear - E2 F; destruct st1 as [|[]]; try discriminate E2; injection E2 as <-; now apply fns_cons in F).
      clear F. rename F2 into F.
      clear - E3 F. rename st2 into sx. destruct sx as [|[]]; try discriminate E3. injection E3 as <-. now apply fns_cons in F.
    + unfold eret. cbn [efx rbind run]. now apply T.
  - unfold ebind at 1. rewrite find_link, run_rbind.
    destruct (run k w1 err1 (name_err (ac_name a) (lift (get_template inner (t_source (ac_template a)) name h)))) as [[w2 err2] [[t' h']|e| |]];
      cbn [efx]; try (exists h; reflexivity).
    unfold eret at 1. cbn [efx run]. now apply T.
  - unfold ebind at 1. rewrite find_link, run_rbind.
    destruct (run k w1 err1 (name_err (ac_name a) (lift (get_template inner (t_source (ac_template a)) name h)))) as [[w2 err2] [[t' h']|e| |]];
      cbn [efx]; try (exists h; reflexivity).
    unfold eret at 1. cbn [efx run]. apply T. constructor; [exact I|]. constructor; [exact I|exact F].
Qed.
(** With functions without state, the machine of Calls.v is the one of Render.v. *)
Theorem render_link fuel st w : fns st ->
  exists h, x_render ev inner fuel st (w, None, []) = on h (run k w None (render inner fuel st)).
Proof. intros H. apply (loop_link fuel _ st [] w None H). Qed.
End Link.
