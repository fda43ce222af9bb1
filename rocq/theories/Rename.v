(** New names do not change the meaning of templates. *)
From Verif Require Import Base Ext Errors Value Ast Fmt Stack Filters Render RenderObs Engine Meaning MeaningProof ExtendSpec RenameSpec Props14.

Section Rename.
Context `{X : Ext}.
Variables vars funs temps : str -> str.
Hypothesis Hinj : forall a b, vars a = vars b -> a = b.
Hypothesis Hloop : vars (s2b "loop") = s2b "loop".

(** ** Trees of writes *)
Inductive twin {A B} (Q : A -> B -> Prop) : rt A -> rt B -> Prop :=
| tw_ok a b : Q a b -> twin Q (RRet (Ok a)) (RRet (Ok b))
| tw_err e : twin Q (RRet (Err e)) (RRet (Err (new_error temps e)))
| tw_panic : twin Q (RRet Panic) (RRet Panic)
| tw_fuel : twin Q (RRet OutOfFuel) (RRet OutOfFuel)
| tw_write s o1 o2 e1 e2 : twin Q o1 o2 -> twin Q e1 e2 -> twin Q (RWrite s o1 e1) (RWrite s o2 e2).
Lemma twin_bind {A B A' B'} (Q : A -> B -> Prop) (Q' : A' -> B' -> Prop) x y f g :
  twin Q x y -> (forall a b, Q a b -> twin Q' (f a) (g b)) -> twin Q' (rbind x f) (rbind y g).
Proof. induction 1; intros H'; cbn [rbind]; auto; constructor; auto. Qed.
Definition told (h1 h2 : list str) : Prop := h2 = map temps h1.
Notation tw := (twin told).
Lemma twin_fail n t : tw (m_fail n t) (m_fail (option_map temps n) t).
Proof. unfold m_fail. exact (tw_err told (mkerror (fst t) n (Some (snd t)) None)). Qed.
Lemma twin_fail_none t : tw (m_fail None t) (m_fail None t).
Proof. exact (twin_fail None t). Qed.
Lemma twin_fmt n p : twin eq (run_fmt p (fun m => Err (mkerror KFormat n m None))) (run_fmt p (fun m => Err (mkerror KFormat (option_map temps n) m None))).
Proof.
  induction p as [|m|s ok IHo er IHe]; cbn [run_fmt].
  - now constructor.
  - exact (tw_err eq (mkerror KFormat n m None)).
  - now constructor.
Qed.
Lemma twin_string (x y : rt unit) : twin eq x y -> string_result y = new_result temps (string_result x).
Proof.
  unfold string_result. generalize (@nil byte). intros buf H. revert buf. induction H as [[] [] _|e| | |s o1 o2 e1 e2 _ IH _ _]; intros buf; cbn [run_string]; try reflexivity. apply IH.
Qed.
Lemma twin_writer k w (x y : rt unit) : twin eq x y -> writer_result k w y = (fst (writer_result k w x), new_result temps (snd (writer_result k w x))).
Proof.
  unfold writer_result. generalize (@None N). intros er H. revert w er. induction H as [[] [] _|e| | |s o1 o2 e1 e2 _ IH1 _ IH2]; intros w er; cbn [run].
  1-4: destruct er; reflexivity.
  destruct (sk_write k w s) as [w' [c|]]; auto.
Qed.

(** ** Variables *)
Definition renv (en1 en2 : env) : Prop := forall f r, m_find en2 (vars f) r = m_find en1 f r.
Lemma vars_eqb a b : str_eqb (vars a) (vars b) = str_eqb a b.
Proof.
  destruct (str_eqb a b) eqn:E.
  - apply str_eqb_eq in E as ->. now apply str_eqb_eq.
  - destruct (str_eqb (vars a) (vars b)) eqn:E'; [|reflexivity]. apply str_eqb_eq in E'. apply Hinj in E' as ->. rewrite (proj2 (str_eqb_eq b b) eq_refl) in E. discriminate E.
Qed.
Lemma loop_eqb a : str_eqb (vars a) (s2b "loop") = str_eqb a (s2b "loop").
Proof. rewrite <- Hloop at 1. apply vars_eqb. Qed.
Lemma push b1 b2 en1 en2 : (forall f r, ask b2 (vars f) r = ask b1 f r) -> renv en1 en2 -> renv (b1 :: en1) (b2 :: en2).
Proof. intros Hb He f r. cbn [m_find]. rewrite Hb. destruct (ask b1 f r); auto. Qed.
Lemma push_name n c en1 en2 : renv en1 en2 -> renv (BName n c :: en1) (BName (vars n) c :: en2).
Proof. apply push. intros f r. cbn [ask]. now rewrite vars_eqb. Qed.
Lemma push_item n o x i rem en1 en2 : renv en1 en2 -> renv (BItem n o x i rem :: en1) (BItem (vars n) o x i rem :: en2).
Proof. apply push. intros f r. cbn [ask]. now rewrite loop_eqb, vars_eqb. Qed.
Lemma push_entry kn vn o k x i rem en1 en2 : renv en1 en2 -> renv (BEntry kn vn o k x i rem :: en1) (BEntry (vars kn) (vars vn) o k x i rem :: en2).
Proof. apply push. intros f r. cbn [ask]. now rewrite loop_eqb, !vars_eqb. Qed.
Lemma given_start g v : given g v -> start g = [BScope (Borrowed v)].
Proof. now intros []. Qed.
Lemma renv_start g1 g2 : new_context vars g1 g2 -> renv (start g1) (start g2).
Proof.
  intros [g1' g2' m1 m2 G1 G2 H|g1' g2' v Hv G1 G2|f1 f2 H].
  - rewrite (given_start _ _ G1), (given_start _ _ G2). apply push; [|now intros f r]. intros f r. cbn [ask cow_val]. now rewrite H.
  - rewrite (given_start _ _ G1), (given_start _ _ G2). apply push; [|now intros f r]. intros f r. cbn [ask cow_val]. destruct v; try reflexivity. now destruct (Hv m).
  - apply push; [|now intros f r]. intros f r. cbn [ask]. now rewrite H.
Qed.

(** ** Expressions *)
Variables w1 w2 : world.
Hypothesis Hfun : forall n, w_function w2 (funs n) = w_function w1 n.
Hypothesis Hdef : w_default w1 = w_default w2.
Hypothesis Hlim : w_limit w1 = w_limit w2.
Lemma re_arg en1 en2 t a : renv en1 en2 -> m_arg en2 t (new_atom vars a) = m_arg en1 t a.
Proof. intros R. unfold m_arg. destruct a as [f r|v]; cbn [new_atom]; [|reflexivity]. now rewrite R. Qed.
Lemma re_args en1 en2 : renv en1 en2 -> forall l tys, m_args en2 tys (map (new_atom vars) l) = m_args en1 tys l.
Proof. intros R. induction l as [|a l IH]; intros [|t tys]; cbn [m_args map]; try reflexivity. now rewrite (re_arg en1 en2), IH. Qed.
Lemma re_call en1 en2 f v l : renv en1 en2 -> m_call en2 f v (map (new_atom vars) l) = m_call en1 f v l.
Proof. intros R. unfold m_call. now rewrite map_length, (re_args en1 en2). Qed.
Lemma re_expr en1 en2 e : renv en1 en2 -> m_expr w2 en2 (new_expr vars funs e) = m_expr w1 en1 e.
Proof.
  intros R. induction e as [[f r|v]|recv IH name args]; cbn [new_expr new_atom m_expr]; [now rewrite R|reflexivity|]. rewrite IH. destruct (m_expr w1 en1 recv) as [c|t]; [|reflexivity].
  unfold m_apply. rewrite Hfun. destruct (w_function w1 name) as [[f|f]|]; try reflexivity. destruct args as [l|]; [now rewrite (re_call en1 en2)|].
  pose proof (re_call en1 en2 f (cow_val c) [] R) as K. cbn [map] in K. now rewrite K.
Qed.
Lemma re_show en1 en2 e : renv en1 en2 -> m_show w2 en2 (new_expr vars funs e) = m_show w1 en1 e.
Proof.
  intros R. destruct e as [a|recv name [l|]]; [destruct a; cbn [new_expr new_atom m_show m_expr]; [now rewrite R, Hdef|now rewrite Hdef]| |].
  - unfold m_show. change (new_expr vars funs (PCall recv name (Some l))) with (PCall (new_expr vars funs recv) (funs name) (Some (map (new_atom vars) l))).
    change (PCall (new_expr vars funs recv) (funs name) (Some (map (new_atom vars) l))) with (new_expr vars funs (PCall recv name (Some l))).
    pose proof (re_expr en1 en2 (PCall recv name (Some l)) R) as K. cbn [new_expr] in K |- *. now rewrite K, Hdef.
  - cbn [new_expr m_show]. rewrite (re_expr en1 en2 recv R). destruct (m_expr w1 en1 recv) as [c|t]; [|reflexivity]. rewrite Hfun, Hdef.
    destruct (w_function w1 name) as [[f|f]|]; try reflexivity. pose proof (re_call en1 en2 f (cow_val c) [] R) as K. cbn [map] in K. now rewrite K.
Qed.

(** ** Statements *)
Definition allowed (s : pstmt) : Prop := (forall n, vars n = n) \/ no_include_with s.
Definition allowed_all (l : list pstmt) : Prop := Forall allowed l.
Lemma no_include_all l : (fix all (l : list pstmt) : Prop := match l with [] => True | s :: l' => no_include_with s /\ all l' end) l <-> Forall no_include_with l.
Proof. induction l as [|s l IH]; [split; constructor|]. rewrite IH. split; [intros (A & B); now constructor|now inversion 1]. Qed.
Lemma allowed_inner (P : Prop) l : (forall n, vars n = n) \/ P -> (P -> Forall no_include_with l) -> allowed_all l.
Proof. intros [H|H] K; [apply Forall_forall; intros; now left|]. eapply Forall_impl; [|exact (K H)]. intros s; now right. Qed.
Hypothesis Hfind : forall h n, match w_find w1 h n, w_find w2 (map temps h) (temps n) with
  | inl (b1, h1), inl (b2, h2) => b2 = map (new_stmt vars funs temps) b1 /\ h2 = map temps h1 /\ allowed_all b1
  | inr r1, inr r2 => r1 = r2
  | _, _ => False end.
Definition meanings_twin (m1 m2 : meaning) : Prop := forall b n en1 en2 h, allowed_all b -> renv en1 en2 ->
  tw (m1 b n en1 h) (m2 (map (new_stmt vars funs temps) b) (option_map temps n) en2 (map temps h)).
Section Stmts.
Variables inc1 inc2 : option meaning.
Hypothesis Hinc : match inc1, inc2 with Some m1, Some m2 => meanings_twin m1 m2 | None, None => True | _, _ => False end.
Variable n : option str.
Notation st1 := (m_stmt w1 inc1 n).
Notation st2 := (m_stmt w2 inc2 (option_map temps n)).
Definition good (s : pstmt) : Prop := forall en1 en2 h, allowed s -> renv en1 en2 -> tw (st1 s en1 h) (st2 (new_stmt vars funs temps s) en2 (map temps h)).
Lemma re_scope l : Forall good l -> allowed_all l -> forall en1 en2 h, renv en1 en2 ->
  tw (m_scope w1 inc1 n l en1 h) (m_scope w2 inc2 (option_map temps n) (map (new_stmt vars funs temps) l) en2 (map temps h)).
Proof.
  induction 1 as [|s l Hs _ IH]; intros A en1 en2 h R; cbn [m_scope map]; [now constructor|]. inversion A as [|? ? A1 A2]; subst.
  eapply twin_bind; [now apply Hs|]. intros h1 h2 ->. now apply IH.
Qed.
Lemma re_each body1 body2 bs1 bs2 en1 en2 : renv en1 en2 ->
  Forall2 (fun b1 b2 => forall en1 en2, renv en1 en2 -> renv (b1 :: en1) (b2 :: en2)) bs1 bs2 ->
  (forall en1 en2 h, renv en1 en2 -> tw (body1 en1 h) (body2 en2 (map temps h))) -> forall h, tw (m_each body1 en1 bs1 h) (m_each body2 en2 bs2 (map temps h)).
Proof.
  intros R H Hb. induction H as [|b1 b2 bs1 bs2 H1 _ IH]; intros h; cbn [m_each]; [now constructor|]. eapply twin_bind; [apply Hb; auto|]. intros h1 h2 ->. apply IH.
Qed.
Lemma re_items item o l : forall i, Forall2 (fun b1 b2 => forall en1 en2, renv en1 en2 -> renv (b1 :: en1) (b2 :: en2)) (item_rounds item o i l) (item_rounds (vars item) o i l).
Proof. induction l as [|x l IH]; intros i; cbn [item_rounds]; constructor; auto. intros en1 en2. apply push_item. Qed.
Lemma re_entries kn vn o l : forall i, Forall2 (fun b1 b2 => forall en1 en2, renv en1 en2 -> renv (b1 :: en1) (b2 :: en2)) (entry_rounds kn vn o i l) (entry_rounds (vars kn) (vars vn) o i l).
Proof. induction l as [|[k x] l IH]; intros i; cbn [entry_rounds]; constructor; auto. intros en1 en2. apply push_entry. Qed.
Lemma re_stmt : forall s, good s.
Proof.
  induction s as [t|e|name arg|neg c thn els IHt IHe|item e b IHb|kn vn e b IHb|e name b IHb] using pstmt_ind'; intros en1 en2 h A R.
  - cbn [new_stmt m_stmt]. apply tw_write; [now constructor|]. exact (tw_err told (mkerror KFormat n None None)).
  - cbn [new_stmt m_stmt]. rewrite (re_show en1 en2 e R). destruct (m_show w1 en1 e) as [[f v]|t]; [|apply twin_fail].
    eapply twin_bind; [apply twin_fmt|]. intros _ _ _. now constructor.
  - assert (IN : forall en1 en2, renv en1 en2 -> tw
      (match w_find w1 h name with
      | inr r => m_fail n (KRender, r)
      | inl (body, asked) => match inc1 with None => m_fail None (KRender, s2b "reached maximum include depth (" ++ show_N (w_limit w1) ++ s2b ")") | Some meaning => meaning body (Some name) en1 asked end end)
      (match w_find w2 (map temps h) (temps name) with
      | inr r => m_fail (option_map temps n) (KRender, r)
      | inl (body, asked) => match inc2 with None => m_fail None (KRender, s2b "reached maximum include depth (" ++ show_N (w_limit w2) ++ s2b ")") | Some meaning => meaning body (Some (temps name)) en2 asked end end)).
    { intros e1 e2 R'. specialize (Hfind h name). destruct (w_find w1 h name) as [[b1 h1]|r1], (w_find w2 (map temps h) (temps name)) as [[b2 h2]|r2]; try contradiction.
      - destruct Hfind as (-> & -> & Ab). destruct inc1 as [m1|], inc2 as [m2|]; try contradiction.
        + exact (Hinc b1 (Some name) e1 e2 h1 Ab R').
        + rewrite Hlim. apply twin_fail_none.
      - rewrite Hfind. apply twin_fail. }
    cbn [new_stmt m_stmt]. destruct arg as [e|]; [|now apply IN]. rewrite (re_expr en1 en2 e R). destruct (m_expr w1 en1 e) as [c|t]; [|apply twin_fail].
    apply IN. destruct A as [A|A]; [|discriminate A]. apply push; [|now intros f r]. intros f r. now rewrite A.
  - change (new_stmt vars funs temps (PIf neg c thn els)) with (PIf neg (new_expr vars funs c) (map (new_stmt vars funs temps) thn) (match els with Some l => Some (map (new_stmt vars funs temps) l) | None => None end)).
    rewrite !m_stmt_if, (re_expr en1 en2 c R). destruct (m_expr w1 en1 c) as [v|t]; [|apply twin_fail].
    destruct (xorb neg (as_bool (cow_val v))).
    + apply re_scope; [exact IHt| |exact R]. apply (allowed_inner _ _ A). intros (A1 & _). now apply no_include_all in A1.
    + destruct els as [l|]; [|now constructor]. apply re_scope; [exact IHe| |exact R]. apply (allowed_inner _ _ A). intros (_ & A1). now apply no_include_all in A1.
  - change (new_stmt vars funs temps (PFor item e b)) with (PFor (vars item) (new_expr vars funs e) (map (new_stmt vars funs temps) b)).
    rewrite !m_stmt_for, (re_expr en1 en2 e R). destruct (m_expr w1 en1 e) as [v|t]; [|apply twin_fail].
    destruct (cow_val v); try apply twin_fail. apply re_each; [exact R|apply re_items|]. intros e1 e2 h' R'. apply re_scope; [exact IHb| |exact R'].
    apply (allowed_inner _ _ A). intros A1. now apply no_include_all in A1.
  - change (new_stmt vars funs temps (PForEntries kn vn e b)) with (PForEntries (vars kn) (vars vn) (new_expr vars funs e) (map (new_stmt vars funs temps) b)).
    rewrite !m_stmt_entries, (re_expr en1 en2 e R). destruct (m_expr w1 en1 e) as [v|t]; [|apply twin_fail].
    destruct (cow_val v); try apply twin_fail. apply re_each; [exact R|apply re_entries|]. intros e1 e2 h' R'. apply re_scope; [exact IHb| |exact R'].
    apply (allowed_inner _ _ A). intros A1. now apply no_include_all in A1.
  - change (new_stmt vars funs temps (PWith e name b)) with (PWith (new_expr vars funs e) (vars name) (map (new_stmt vars funs temps) b)).
    rewrite !m_stmt_with, (re_expr en1 en2 e R). destruct (m_expr w1 en1 e) as [v|t]; [|apply twin_fail].
    apply re_scope; [exact IHb| |now apply push_name]. apply (allowed_inner _ _ A). intros A1. now apply no_include_all in A1.
Qed.
Lemma re_block l en1 en2 h : allowed_all l -> renv en1 en2 ->
  tw (m_scope w1 inc1 n l en1 h) (m_scope w2 inc2 (option_map temps n) (map (new_stmt vars funs temps) l) en2 (map temps h)).
Proof. intros A. apply re_scope; [|exact A]. apply Forall_forall. intros s _. apply re_stmt. Qed.
End Stmts.
Lemma re_template d : meanings_twin (m_template w1 d) (m_template w2 d).
Proof.
  induction d as [|d IH]; intros b n en1 en2 h A R; cbn [m_template].
  - now apply (re_block None None I).
  - now apply (re_block (Some (m_template w1 d)) (Some (m_template w2 d)) IH).
Qed.
Lemma re_render b n en1 en2 : allowed_all b -> renv en1 en2 ->
  twin eq (m_render w1 b n en1) (m_render w2 (map (new_stmt vars funs temps) b) (option_map temps n) en2).
Proof.
  intros A R. unfold m_render. rewrite <- Hlim. eapply twin_bind; [exact (re_template _ b n en1 en2 [] A R)|]. intros _ _ _. now constructor.
Qed.
End Rename.
