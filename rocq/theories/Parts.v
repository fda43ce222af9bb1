(** What parts of a template do: the laws of blocks, sequences and includes. *)
From Verif Require Import Base Utf8 Ext Errors Syntax AhoCorasick SearchSpec SyntaxSpec Value Ast Lexer LexSpec Wp
  GrammarSpec Parser AstOk Compiler CompileProof ParseMain Fmt Stack Filters Render Engine EngineSpec CompileFacts
  RenderSpec RenderProof RenderErr MapFacts RenderMain RenderObs StackRel.

(** ** Definitions used in the statements of the laws *)
Section Defs.
Context `{X : Ext}.

(** [does inner st tree]: rendering the root template of [inner] in the variables
    [st] has the effect [tree] (what it writes, how it reacts to a refused write,
    and how it ends). *)
Definition does (inner : renderer_inner) (st : stack) (tree : rt unit) : Prop :=
  exists n, forall fuel, n <= fuel -> render inner fuel st = tree.

(** The compiled code of some statements of the text [source], as a template. *)
Definition program (source : str) (l : scope) : template :=
  mktemplate source (match compile_scope [] l with Ok c => c | _ => [] end).
(** The same renderer for another template. *)
Definition with_root (inner : renderer_inner) (t : template) : renderer_inner :=
  mkinner (ri_engine inner) t (ri_template_name inner) (ri_max_include_depth inner) (ri_template_fn inner).
(** [acts inner source l st tree]: the effect of the statements [l]. *)
Definition acts (inner : renderer_inner) (source : str) (l : scope) : stack -> rt unit -> Prop :=
  does (with_root inner (program source l)).

(** First the one, then (if it succeeds) the other. *)
Definition andthen (x y : rt unit) : rt unit := rbind x (fun _ => y).
Definition in_turn (l : list (rt unit)) : rt unit := fold_right andthen (RRet (Ok tt)) l.

(** Every template an include can name was compiled. *)
Definition library (inner : renderer_inner) (origin : template -> syntax) : Prop :=
  forall t, named inner t -> template_of (origin t) t.
(** The template function, if any, answers a name always with the same template. *)
Definition steady (inner : renderer_inner) : Prop :=
  match ri_template_fn inner with Some f => forall h h' n, f h n = f h' n | None => True end.

Lemma does_fun inner st x y : does inner st x -> does inner st y -> x = y.
Proof. intros (n & H) (m & H'). rewrite <- (H (n + m)), <- (H' (n + m)) by lia. reflexivity. Qed.
(** What [does] means for the API. *)
Lemma does_renders inner g st tree : initial_stack g = Ok st -> does inner st tree -> string_result tree <> OutOfFuel ->
  renders inner g (string_result tree).
Proof. intros E (n & H) F. split; auto. exists n. intros f Hf. rewrite (to_string_result _ _ _ _ E). now rewrite H. Qed.
Lemma does_writes inner g st tree k w : initial_stack g = Ok st -> does inner st tree -> snd (writer_result k w tree) <> OutOfFuel ->
  writes inner g k w (writer_result k w tree).
Proof. intros E (n & H) F. split; auto. exists n. intros f Hf. rewrite (to_writer_result _ _ _ _ _ _ E). now rewrite H. Qed.
End Defs.

Definition forget {A} (x : rt A) : rt unit := rbind x (fun _ => RRet (Ok tt)).

Section Laws.
Context `{X : Ext}.
Variable inner : renderer_inner.
Variable origin : template -> syntax.
Hypothesis Hlib : library inner origin.

Definition lib_ast (t : template) : scope :=
  match @searcher_new error (origin t) with
  | Ok sr => match parse_template sr (t_source t) with Ok s => s | _ => [] end
  | _ => [] end.
Lemma lib_derives t : named inner t -> derives (origin t) (t_source t) (lib_ast t).
Proof.
  intros Hp. destruct (Hlib t Hp) as (Hu & Hc & Hv & e & He & Ec).
  pose proof (engine_searcher _ _ He) as Hs. unfold lib_ast. rewrite Hs.
  apply (compile_iff _ Hu _ Hs _ Hv Hc) in Ec as (s & D & _).
  now rewrite (parse_complete _ Hu _ Hs _ Hv Hc s D).
Qed.
Lemma lib_sourced t : named inner t -> sourced lib_ast t.
Proof.
  intros Hp. pose proof (lib_derives t Hp) as D. destruct (Hlib t Hp) as (Hu & Hc & Hv & e & He & Ec).
  pose proof (engine_searcher _ _ He) as Hs.
  pose proof (derives_ok _ Hu _ Hv _ D) as Hok. split; [|exact Hok].
  assert (E2 : engine_compile (t_source t) e = Ok (mktemplate (t_source t) (cscope 0 (lib_ast t)))).
  { apply (compile_iff _ Hu _ Hs _ Hv Hc). eauto. }
  rewrite Ec in E2. injection E2 as E2. rewrite E2 at 1. reflexivity.
Qed.
Lemma lib_nonempty t : named inner t -> lib_ast t <> [] -> t_source t <> [].
Proof. intros Hp. destruct (Hlib t Hp) as (Hu & _ & Hv & _). eapply derives_nonempty; eauto using lib_derives. Qed.

Notation d0 := (N.to_nat (max_include_depth inner) - 1).
Notation part := (s_part inner lib_ast d0).
Notation nm := (ri_template_name inner).

(** The spec tree of statements. *)
Lemma acts_part source l st : Forall (stmt_ok source) l -> acts inner source l st (forget (part source nm l st [])).
Proof.
  intros Hok. unfold acts, does, program. rewrite (compile_scope_ok source l Hok).
  apply (render_part (with_root inner (mktemplate source (cscope 0 l))) lib_ast lib_sourced l st); auto.
Qed.
Lemma acts_iff source l st tree : Forall (stmt_ok source) l ->
  (acts inner source l st tree <-> tree = forget (part source nm l st [])).
Proof.
  intros Hok. pose proof (acts_part source l st Hok) as H. split.
  - intros H'. eapply does_fun; eauto.
  - intros ->. exact H.
Qed.
Lemma part_app source n d l1 l2 st h : s_part inner lib_ast d source n (l1 ++ l2) st h =
  rbind (s_part inner lib_ast d source n l1 st h) (fun h => s_part inner lib_ast d source n l2 st h).
Proof.
  unfold s_part. revert h. induction l1 as [|s l1 IH]; intros h; cbn [app s_scope rbind]; auto. rewrite rbind_assoc.
  apply rbind_ext. intros h'. apply IH.
Qed.

(** ** Steady template functions *)
Hypothesis Hsteady : steady inner.
Lemma forget_bind {A} (x x' : rt A) (f : A -> rt (list str)) : forget x = forget x' -> (forall a b, forget (f a) = forget (f b)) ->
  forget (rbind x f) = forget (rbind x' f).
Proof.
  intros H Hf. unfold forget in *. rewrite !rbind_assoc.
  assert (K : forall a (y : rt A), rbind y (fun b => rbind (f b) (fun _ => RRet (Ok tt))) =
    rbind (rbind y (fun _ => RRet (Ok tt))) (fun _ => rbind (f a) (fun _ => RRet (Ok tt)))).
  { intros a y. rewrite rbind_assoc. apply rbind_ext. intros b. apply Hf. }
  assert (C : (exists a, oks x a \/ oks x' a) \/ forall a, ~ oks x a /\ ~ oks x' a).
  { clear. assert (D : forall y : rt A, (exists a, oks y a) \/ forall a, ~ oks y a).
    { induction y as [r|s o IHo e IHe]; cbn [oks].
      - destruct r as [a| | |]; eauto.
      - destruct IHo as [(a & Ha)|Ho]; [left; eauto|]. destruct IHe as [(a & Ha)|He]; [left; eauto|]. right. intros a [?|?]; [eapply Ho|eapply He]; eauto. }
    destruct (D x) as [(a & Ha)|Hx]; [left; eauto|]. destruct (D x') as [(a & Ha)|Hx']; [left; eauto|]. right. split; auto. }
  destruct C as [(a & _)|C].
  - rewrite (K a x), (K a x'). now rewrite H.
  - assert (N : forall (y : rt A), (forall a, ~ oks y a) -> rbind y (fun a => rbind (f a) (fun _ => RRet (Ok tt))) = rbind y (fun _ => RRet (Ok tt))).
    { intros y Hy. apply rbind_ext_oks. intros a Ha. now apply Hy in Ha. }
    rewrite !N; auto; intros a; apply C.
Qed.
Lemma steady_find source name h h' : match s_find inner source name h, s_find inner source name h' with
  | Ok (t, _), Ok (t', _) => t = t' | r, r' => r = r' end.
Proof.
  unfold s_find. unfold steady in Hsteady. destruct (ri_template_fn inner) as [f|].
  - rewrite (Hsteady h h'). destruct (f h' (as_name name)); auto. destruct (err_render _ _ _) as [[? ?]| | |]; auto.
  - destruct (map_get _ _); auto. destruct (err_render _ _ _) as [[? ?]| | |]; auto.
Qed.
Section SteadyOne.
Variable source : str.
Variable tname : option str.
Variable inc : option rend.
Hypothesis Hinc : forall run t n st h h', inc = Some run -> forget (run t n st h) = forget (run t n st h').
Definition steady_stmt (s : stmt) : Prop := forall st h h', forget (s_stmt inner inc source tname s st h) = forget (s_stmt inner inc source tname s st h').
Lemma steady_scope l : Forall steady_stmt l -> forall st h h',
  forget (s_scope inner inc source tname l st h) = forget (s_scope inner inc source tname l st h').
Proof.
  induction 1 as [|s l Hs Hl IH]; intros st h h'; cbn [s_scope]; [reflexivity|]. apply forget_bind; auto.
Qed.
Lemma steady_all s : steady_stmt s.
Proof.
  induction s as [sp|e sp|name g|neg c thn els Ht He|v e b Hb|e name b Hb] using stmt_ind'; intros st h h'; cbn [s_stmt].
  - unfold forget. rewrite !rbind_assoc. apply rbind_ext. intros raw. reflexivity.
  - unfold forget. rewrite !rbind_assoc. apply rbind_ext. intros raw. reflexivity.
  - unfold forget. rewrite !rbind_assoc. apply rbind_ext. intros st'. rewrite !rbind_assoc.
    pose proof (steady_find source name h h') as E. unfold here, lift.
    destruct (s_find inner source name h) as [[t1 h1]|e1| |], (s_find inner source name h') as [[t2 h2]|e2| |]; try discriminate;
    try reflexivity; cbn beta iota in E; [|injection E as <-; reflexivity]. rewrite <- E.
    cbn [name_err rmap_err rbind]. destruct inc as [run|]; [|reflexivity]. now apply (Hinc run).
  - unfold forget. rewrite !rbind_assoc. apply rbind_ext. intros v.
    destruct (xorb neg _); [now apply (steady_scope thn)|]. destruct els as [l|]; [now apply (steady_scope l)|reflexivity].
  - unfold forget. rewrite !rbind_assoc. apply rbind_ext. intros c. rewrite !rbind_assoc. apply rbind_ext. intros sp.
    rewrite !rbind_assoc. apply rbind_ext. intros frs.
    change (forget (s_each (s_scope inner inc source tname b) st frs h) = forget (s_each (s_scope inner inc source tname b) st frs h')).
    revert h h'. induction frs as [|fr frs IH]; intros h h'; cbn [s_each]; [reflexivity|].
    apply forget_bind; auto. now apply steady_scope.
  - unfold forget. rewrite !rbind_assoc. apply rbind_ext. intros c. now apply (steady_scope b).
Qed.
End SteadyOne.
Lemma steady_template d : forall t n st h h', forget (s_template inner lib_ast d t n st h) = forget (s_template inner lib_ast d t n st h').
Proof.
  induction d as [|d IH]; intros t n st h h'; cbn [s_template]; apply steady_scope; apply Forall_forall; intros s _; apply steady_all.
  - discriminate.
  - intros run t' n' st' h1 h2 E. injection E as <-. apply IH.
Qed.
Lemma steady_part d source n l st h h' : forget (s_part inner lib_ast d source n l st h) = forget (s_part inner lib_ast d source n l st h').
Proof.
  unfold s_part. apply steady_scope. apply Forall_forall. intros s _. apply steady_all.
  intros run t' n' st' h1 h2 E. destruct d; [discriminate|]. injection E as <-. apply steady_template.
Qed.
Lemma forget_forget {A} (x : rt A) (y : rt unit) : rbind (forget x) (fun _ => y) = rbind x (fun _ => y).
Proof. unfold forget. rewrite rbind_assoc. now apply rbind_ext. Qed.
Lemma forget_seq d source n (x : rt (list str)) l st : 
  forget (rbind x (fun h => s_part inner lib_ast d source n l st h)) = andthen (forget x) (forget (s_part inner lib_ast d source n l st [])).
Proof.
  unfold andthen. rewrite forget_forget. unfold forget at 1. rewrite rbind_assoc. apply rbind_ext. intros h. apply steady_part.
Qed.
End Laws.
