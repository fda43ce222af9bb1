(** What a user of a renderer observes, without fuel. *)
From Verif Require Import Base Utf8 Ext Errors Syntax Value Ast Fmt Stack Filters Render Engine.

(** What a tree does to a string, and to a writer. *)
Definition string_result (x : rt unit) : res str :=
  match run_string [] x with
  | (s, Ok tt) => Ok s
  | (_, Err e) => Err e
  | (_, Panic) => Panic
  | (_, OutOfFuel) => OutOfFuel
  end.
(** An error of the writer replaces the error it caused. *)
Definition writer_result (k : sink) (w : sk_state k) (x : rt unit) : sk_state k * res unit :=
  match run k w None x with
  | (w', Some code, Err _) => (w', Err (mk_io_error code))
  | (w', _, r) => (w', r)
  end.

Section Obs.
Context `{X : Ext}.

(** [renders inner g r]: [to_string] ends, with [r]. *)
Definition renders (inner : renderer_inner) (g : globals) (r : res str) : Prop :=
  r <> OutOfFuel /\ exists n, forall fuel, n <= fuel -> to_string fuel inner g = r.
(** [writes inner g k w p]: [to_writer] to the writer [k] in state [w] ends, with
    the final state of the writer and the result [p]. *)
Definition writes (inner : renderer_inner) (g : globals) (k : sink) (w : sk_state k) (p : sk_state k * res unit) : Prop :=
  snd p <> OutOfFuel /\ exists n, forall fuel, n <= fuel -> to_writer fuel inner g k w = p.

Lemma renders_fun inner g r r' : renders inner g r -> renders inner g r' -> r = r'.
Proof. intros (_ & n & H) (_ & m & H'). rewrite <- (H (n + m)), <- (H' (n + m)) by lia. reflexivity. Qed.
Lemma writes_fun inner g k w p p' : writes inner g k w p -> writes inner g k w p' -> p = p'.
Proof. intros (_ & n & H) (_ & m & H'). rewrite <- (H (n + m)), <- (H' (n + m)) by lia. reflexivity. Qed.

Lemma to_string_result fuel inner g st : initial_stack g = Ok st -> to_string fuel inner g = string_result (render inner fuel st).
Proof. intros E. unfold to_string. now rewrite E. Qed.
Lemma to_writer_result fuel inner g k w st : initial_stack g = Ok st ->
  to_writer fuel inner g k w = writer_result k w (render inner fuel st).
Proof. intros E. unfold to_writer. now rewrite E. Qed.

Lemma initial_stack_shape g st : initial_stack g = Ok st -> (exists v, st = [FrScope (Borrowed v)]) \/ exists f, st = [FrValueFn f].
Proof. destruct g as [[v| | |]|v|f]; cbn; intros H; try discriminate; injection H as <-; eauto. Qed.
End Obs.

(** ** More fuel does not change a result *)

(** [le_rt x y]: [y] is [x] except where [x] ran out of fuel. *)
Fixpoint le_rt {A} (x y : rt A) : Prop :=
  match x with
  | RRet OutOfFuel => True
  | RRet r => y = RRet r
  | RWrite s o e => exists o' e', y = RWrite s o' e' /\ le_rt o o' /\ le_rt e e'
  end.
Lemma le_refl {A} (x : rt A) : le_rt x x.
Proof. induction x as [[]|s o IHo e IHe]; cbn; eauto 6. Qed.
Lemma le_rbind {A B} (x y : rt A) (f g : A -> rt B) : le_rt x y -> (forall a, le_rt (f a) (g a)) -> le_rt (rbind x f) (rbind y g).
Proof.
  revert y. induction x as [r|s o IHo e IHe]; intros y H Hf; cbn [le_rt] in H.
  - destruct r as [a|er| |]; try (subst y; cbn; auto). exact I.
  - destruct H as (o' & e' & -> & H1 & H2). cbn [rbind le_rt]. eauto 8.
Qed.
Lemma le_map_err {A} f (x y : rt A) : le_rt x y -> le_rt (rmap_err f x) (rmap_err f y).
Proof.
  revert y. induction x as [r|s o IHo e IHe]; intros y H; cbn [le_rt] in H.
  - destruct r as [a|er| |]; try (subst y; cbn; auto). exact I.
  - destruct H as (o' & e' & -> & H1 & H2). cbn [rmap_err le_rt]. eauto 8.
Qed.
Section Fuel.
Context `{X : Ext}.
Variable inner : renderer_inner.
Lemma render_one_mono t : forall f f' pc st ex, f <= f' -> le_rt (render_one inner f t pc st ex) (render_one inner f' t pc st ex).
Proof.
  induction f as [|f IH]; intros f' pc st ex H; [exact I|]. destruct f' as [|f']; [lia|]. cbn [render_one].
  destruct (nth_error (t_instrs t) pc) as [i|]; [|apply le_refl].
  apply le_rbind; [apply le_refl|]. intros [pc' st' ex'|rs pc' st']; [|apply le_refl]. apply IH. lia.
Qed.
Lemma render_loop_mono : forall f f' ts st hist, f <= f' -> le_rt (render_loop inner f ts st hist) (render_loop inner f' ts st hist).
Proof.
  induction f as [|f IH]; intros f' ts st hist H.
  - destruct ts; [destruct f'; apply le_refl|exact I].
  - destruct f' as [|f']; [lia|]. destruct ts as [|a rest]; [apply le_refl|]. cbn [render_loop].
    apply le_rbind; [apply le_map_err; apply render_one_mono; lia|]. intros [[rs pc] st'].
    apply le_rbind; [apply le_refl|]. intros [[ts st2] h]. destruct (_ <? _)%N; [apply le_refl|]. apply IH. lia.
Qed.
Lemma le_string {A} (x y : rt A) : le_rt x y -> forall buf s r, run_string buf x = (s, r) -> r <> OutOfFuel -> run_string buf y = (s, r).
Proof.
  revert y. induction x as [r|s o IHo e IHe]; intros y H buf s' r' E Hr; cbn [le_rt run_string] in *.
  - injection E as -> ->. destruct r'; try (subst y; reflexivity). congruence.
  - destruct H as (o' & e' & -> & H1 & H2). cbn [run_string]. eauto.
Qed.
Lemma le_run {A} k (x y : rt A) : le_rt x y -> forall w er w' er' r, run k w er x = (w', er', r) -> r <> OutOfFuel -> run k w er y = (w', er', r).
Proof.
  revert y. induction x as [r|s o IHo e IHe]; intros y H w er w' er' r' E Hr; cbn [le_rt run] in *.
  - injection E as -> -> ->. destruct r'; try (subst y; reflexivity). congruence.
  - destruct H as (o' & e' & -> & H1 & H2). cbn [run]. destruct (sk_write k w s) as [w1 [c|]]; eauto.
Qed.
Theorem to_string_mono f f' g : f <= f' -> to_string f inner g <> OutOfFuel -> to_string f' inner g = to_string f inner g.
Proof.
  intros H. unfold to_string. destruct (initial_stack g) as [st| | |]; auto. cbn [bind].
  pose proof (le_string _ _ (render_loop_mono f f' [mkact (ri_template inner) (ri_template_name inner) 0 false] st [] H) []) as K.
  unfold render in *. destruct (run_string [] (render_loop inner f _ st [])) as [s r]. intros Hr.
  specialize (K s r eq_refl). rewrite K; auto. destruct r as [[]| | |]; congruence.
Qed.
Theorem to_writer_mono f f' g k w : f <= f' -> snd (to_writer f inner g k w) <> OutOfFuel ->
  to_writer f' inner g k w = to_writer f inner g k w.
Proof.
  intros H. unfold to_writer. destruct (initial_stack g) as [st| | |]; auto.
  pose proof (le_run k _ _ (render_loop_mono f f' [mkact (ri_template inner) (ri_template_name inner) 0 false] st [] H) w None) as K.
  unfold render in *. destruct (run k w None (render_loop inner f _ st [])) as [[w' er] r]. intros Hr.
  specialize (K w' er r eq_refl). rewrite K; auto. destruct er, r as [[]| | |]; cbn in *; congruence.
Qed.
Lemma renders_by fuel g r : to_string fuel inner g = r -> r <> OutOfFuel -> renders inner g r.
Proof. intros E Hr. split; auto. exists fuel. intros f Hf. rewrite <- E in *. now apply to_string_mono. Qed.
Lemma writes_by fuel g k w p : to_writer fuel inner g k w = p -> snd p <> OutOfFuel -> writes inner g k w p.
Proof. intros E Hr. split; auto. exists fuel. intros f Hf. rewrite <- E in *. now apply to_writer_mono. Qed.
End Fuel.
