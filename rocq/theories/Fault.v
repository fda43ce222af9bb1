(** What an error of a rendering says is true (C58): the proof. *)
From Verif Require Import Base Utf8 Ext Errors Value Ast Fmt Stack Filters FilterSpec FilterProof Render LookupSpec MapFacts
  RenderObs Meaning MeaningProof Props14 FaultSpec.

(** ** How a tree ends if no write fails *)
Fixpoint ends {A} (x : rt A) (e : error) : Prop :=
  match x with RRet (Err e') => e' = e | RRet _ => False | RWrite _ ok _ => ends ok e end.
Lemma ends_bind {A B} (x : rt A) (f : A -> rt B) e : ends (rbind x f) e -> ends x e \/ exists a, ends (f a) e.
Proof. induction x as [[a| | |]|s o IH er _]; cbn; eauto. Qed.
Lemma ends_fmt p on_err e : ends (run_fmt p on_err) e -> exists m, refuses p m /\ on_err m = Err e.
Proof.
  induction p as [|m|s o IH er _]; cbn; intros H; [contradiction| |].
  - exists m. split; [constructor|]. destruct (on_err m); cbn in H; try contradiction. now subst.
  - destruct (IH H) as (m & Hm & E). exists m. split; [now constructor|exact E].
Qed.
Lemma ends_string (x : rt unit) e : string_result x = Err e -> ends x e.
Proof.
  unfold string_result. generalize (@nil byte). induction x as [[[]|er| |]|s o IH er _]; intros acc H; cbn in *; try discriminate; [now injection H|eauto].
Qed.
Lemma run_some {A} k (x : rt A) : forall w code, exists c, snd (fst (Fmt.run k w (Some code) x)) = Some c.
Proof. induction x as [r|s o IHo e IHe]; intros w code; cbn; [eauto|]. destruct (sk_write k w s) as [w' [c|]]; auto. Qed.
Lemma ends_writer k (x : rt unit) : forall w e, snd (writer_result k w x) = Err e -> ends x e \/ exists code, e = mk_io_error code.
Proof.
  unfold writer_result. induction x as [[[]|er| |]|s o IH er _]; intros w e H; cbn [Fmt.run snd ends] in *; try discriminate; [injection H; auto|].
  destruct (sk_write k w s) as [w' [code|]]; [|eauto].
  destruct (run_some k er w' code) as (c & E). destruct (Fmt.run k w' (Some code) er) as [[w2 [c2|]] [[]| | |]]; cbn in *; try discriminate. injection H as <-. eauto.
Qed.

Section Fault.
Context `{X : Ext}.
Variable w : world.

(** ** Variables *)
Inductive in_sight : env -> globals -> vars -> Prop :=
| is_start g : in_sight (start g) g []
| is_scope c : in_sight [BScope c] (GBorrowed (cow_val c)) []
| is_name x c en g vs : in_sight en g vs -> in_sight (BName x c :: en) g ((x, Named (cow_val c)) :: vs)
| is_item x o v i rem en g vs : in_sight en g vs -> in_sight (BItem x o v i rem :: en) g ((s2b "loop", Round i rem) :: (x, Item v) :: vs)
| is_entry k x o key v i rem en g vs : in_sight en g vs ->
    in_sight (BEntry k x o key v i rem :: en) g ((s2b "loop", Round i rem) :: (k, Key key) :: (x, Item v) :: vs).

(** What a search finds. *)
Definition told (g : globals) (vs : vars) (x : str) (rest : list pstep) (a : got) : Prop :=
  match a with inl c => var_value g vs x rest (cow_val c) | inr r => var_fault g vs x rest r end.
Lemma told_outer g y b vs x rest a : y <> x -> told g vs x rest a -> told g ((y, b) :: vs) x rest a.
Proof.
  intros N H. destruct a as [c|r]; cbn [told] in *.
  - destruct H; [eapply vv_block|eapply vv_skipped|eapply vv_key|eapply vv_loop|eapply vv_context|eapply vv_context_skipped|eapply vv_function]; eauto using se_outer.
  - destruct H; [eapply vf_nowhere|eapply vf_context|eapply vf_block|eapply vf_loop|eapply vf_key|eapply vf_function]; eauto using se_outer.
Qed.
Lemma told_skip g v vs x rest a : follow v rest = Absent -> told g vs x rest a -> told g ((x, Item v) :: vs) x rest a.
Proof.
  intros N H. destruct a as [c|r]; cbn [told] in *.
  - destruct H; [eapply vv_block|eapply vv_skipped|eapply vv_key|eapply vv_loop|eapply vv_context|eapply vv_context_skipped|eapply vv_function]; eauto using se_skip.
  - destruct H; [eapply vf_nowhere|eapply vf_context|eapply vf_block|eapply vf_loop|eapply vf_key|eapply vf_function]; eauto using se_skip.
Qed.
Lemma told_base g x rest : forall o u, context_entry g x = Some u -> told g [] x rest (got_of o (follow u rest)).
Proof.
  intros o u E. destruct (follow u rest) as [v| |r] eqn:Ef; cbn [got_of told].
  - destruct o; cbn [mk_cow cow_val]; eapply vv_context; eauto; constructor.
  - eapply vv_context_skipped; eauto; constructor.
  - eapply vf_context; eauto; constructor.
Qed.
Lemma told_scope c g x rest : is_function g = false -> (forall y, context_entry g y = entry (cow_val c) y) -> told g [] x rest (m_find [BScope c] x rest).
Proof.
  intros F E. cbn [m_find ask].
  assert (K : entry (cow_val c) x = None -> told g [] x rest (inr (s2b "not found in this scope"))).
  { intros N. apply vf_nowhere; [constructor|exact F|now rewrite E]. }
  specialize (E x). destruct (cow_val c) as [| | | | | |m]; try (apply K; reflexivity).
  cbn [entry] in *. destruct (map_get x m) as [u|] eqn:Em; [|apply K; reflexivity]. apply told_base. exact E.
Qed.
Lemma told_item g o v vs x rest a :
  told g vs x rest a -> told g ((x, Item v) :: vs) x rest (match item_path o v rest with Some k => k | None => a end).
Proof.
  intros H. unfold item_path. destruct (follow v rest) as [u| |r] eqn:Ef; cbn [got_of].
  - assert (S : sees rest x ((x, Item v) :: vs) (Some (Item v))) by (constructor; intros ? K; injection K as <-; congruence).
    destruct o; cbn [mk_cow told cow_val]; eapply vv_block; eauto.
  - now apply told_skip.
  - assert (S : sees rest x ((x, Item v) :: vs) (Some (Item v))) by (constructor; intros ? K; injection K as <-; congruence). eapply vf_block; eauto.
Qed.
Lemma eqb_neq x y : str_eqb x y = false -> y <> x.
Proof. intros E ->. rewrite str_eqb_refl in E. discriminate. Qed.
Lemma find_told en g vs x rest : in_sight en g vs -> told g vs x rest (m_find en x rest).
Proof.
  intros H. induction H as [g|c|y c en g vs H IH|y o v i rem en g vs H IH|ky y o key v i rem en g vs H IH].
  - destruct g as [[c|e| |]|c|f]; try (apply vf_nowhere; [constructor|reflexivity|reflexivity]).
    + now apply told_scope.
    + now apply told_scope.
    + cbn [start m_find ask]. destruct (f _) as [v|r] eqn:Ef; cbn [told cow_val].
      * eapply vv_function; [constructor|reflexivity|exact Ef].
      * eapply vf_function; [constructor|reflexivity|exact Ef].
  - now apply told_scope.
  - cbn [m_find ask]. destruct (str_eqb x y) eqn:Ey; [|apply told_outer; [now apply eqb_neq|exact IH]].
    apply str_eqb_eq in Ey. subst y. assert (S : sees rest x ((x, Named (cow_val c)) :: vs) (Some (Named (cow_val c)))) by (constructor; discriminate).
    destruct (follow (cow_val c) rest) as [u| |r] eqn:Ef; cbn [got_of told].
    + destruct (is_owned c); cbn [mk_cow cow_val]; eapply vv_block; eauto.
    + eapply vv_skipped; eauto.
    + eapply vf_block; eauto.
  - cbn [m_find ask]. destruct (str_eqb x (s2b "loop")) eqn:El.
    + apply str_eqb_eq in El. subst x. assert (S : forall vs, sees rest (s2b "loop") ((s2b "loop", Round i rem) :: vs) (Some (Round i rem))) by (intros; constructor; discriminate).
      destruct (loop_path i rem rest) eqn:E; cbn [told]; [eapply vv_loop; eauto|eapply vf_loop; eauto].
    + apply told_outer; [now apply eqb_neq|]. destruct (str_eqb x y) eqn:Ey; [|apply told_outer; [now apply eqb_neq|exact IH]].
      apply str_eqb_eq in Ey. subst y. apply told_item; auto.
  - cbn [m_find ask]. destruct (str_eqb x (s2b "loop")) eqn:El.
    + apply str_eqb_eq in El. subst x. assert (S : forall vs, sees rest (s2b "loop") ((s2b "loop", Round i rem) :: vs) (Some (Round i rem))) by (intros; constructor; discriminate).
      destruct (loop_path i rem rest) eqn:E; cbn [told]; [eapply vv_loop; eauto|eapply vf_loop; eauto].
    + apply told_outer; [now apply eqb_neq|]. destruct (str_eqb x ky) eqn:Ek.
      * apply str_eqb_eq in Ek. subst ky. assert (S : forall vs, sees rest x ((x, Key key) :: vs) (Some (Key key))) by (intros; constructor; discriminate).
        destruct rest; cbn [told cow_val]; [eapply vv_key; eauto|eapply vf_key; eauto; discriminate].
      * apply told_outer; [now apply eqb_neq|]. destruct (str_eqb x y) eqn:Ey; [|apply told_outer; [now apply eqb_neq|exact IH]].
        apply str_eqb_eq in Ey. subst y. apply told_item; auto.
Qed.

(** ** Expressions *)
Section Here.
Variable en : env.
Variable g : globals.
Variable vs : vars.
Hypothesis Hen : in_sight en g vs.

Lemma args_told tys : forall l, length l = length tys -> match m_args en tys l with
  | inl avs => args_value g vs tys l avs
  | inr r => (exists x rest, In (PVar x rest) l /\ var_fault g vs x rest r) \/
             exists i a t c, nth_error l i = Some a /\ nth_error tys i = Some t /\ atom_value g vs a c /\ refused t c r
  end.
Proof.
  induction tys as [|t tys IH]; intros [|a l] E; try discriminate E; cbn [m_args]; [constructor|].
  unfold m_arg. set (A := match a with PLit v => inl (Borrowed v) | PVar x rest => m_find en x rest end).
  assert (H : match A with inl c => atom_value g vs a c | inr r => exists x rest, a = PVar x rest /\ var_fault g vs x rest r end).
  { subst A. destruct a as [x rest|v]; [|constructor]. pose proof (find_told _ _ _ x rest Hen) as K. destruct (m_find en x rest); cbn [told] in K; [now constructor|eauto]. }
  destruct A as [c|r].
  - rewrite convert_eq. pose proof (convert_passes t c) as K. destruct (convert t c) as [av|e].
    + injection E as E. specialize (IH l E). destruct (m_args en tys l) as [avs|r]; [econstructor; eauto|].
      destruct IH as [(x & rest & I & F)|(i & a' & t' & c' & N1 & N2 & F)]; [left; exists x, rest; split; [now right|exact F]|].
      right. exists (S i), a', t', c'. repeat split; try assumption; apply F.
    + rewrite bad_complaint. right. exists 0, a, t, c. auto.
  - destruct H as (x & rest & -> & F). left. exists x, rest. split; [now left|exact F].
Qed.
Lemma call_told e f v l : has_value w g vs e v -> match m_call en f v l with
  | inl u => exists av avs, fits (fl_recv f) v av /\ args_value g vs (fl_args f) l avs /\ fl_run f av avs = inl u
  | inr (k, r) => call_fault w g vs e f l k r
  end.
Proof.
  intros Hv. unfold m_call. destruct (length l =? length (fl_args f)) eqn:E.
  - apply Nat.eqb_eq in E. pose proof (ref_fits (s2b "value") (fl_recv f) v) as K. destruct (from_value_ref (fl_recv f) v) as [av|er].
    + pose proof (args_told (fl_args f) l E) as A. destruct (m_args en (fl_args f) l) as [avs|r].
      * destruct (fl_run f av avs) eqn:R; [eauto|eapply cf_filter; eauto].
      * destruct A as [(x & rest & I & F)|(i & a & t & c & N1 & N2 & F & Rf)]; [eapply cf_missing; eauto|eapply cf_argument; eauto].
    + rewrite bad_complaint. eapply cf_receiver; [exact Hv|apply K].
  - apply Nat.eqb_neq in E. now constructor.
Qed.
Lemma expr_told e : match m_expr w en e with inl c => has_value w g vs e (cow_val c) | inr (k, r) => expr_fault w g vs e k r end.
Proof.
  induction e as [[x rest|v]|e IH f a]; cbn [m_expr].
  - pose proof (find_told _ _ _ x rest Hen) as K. destruct (m_find en x rest); cbn [told] in K; now constructor.
  - constructor.
  - destruct (m_expr w en e) as [c|[k r]]; [|now constructor]. unfold m_apply. change (match a with Some l => l | None => [] end) with (args_of a).
    destruct (w_function w f) as [[fm|fl]|] eqn:Ef; [eapply ef_formatter; eauto| |now constructor].
    pose proof (call_told e fl (cow_val c) (args_of a) IH) as K. destruct (m_call en fl (cow_val c) (args_of a)) as [u|[k r]].
    + destruct K as (av & avs & K1 & K2 & K3). eapply hv_call; eauto.
    + eapply ef_call; eauto.
Qed.
Lemma show_told e : match m_show w en e with
  | inl (f, v) => forall m, refuses (f v) m -> stmt_fault w g vs (PShow e) KFormat m
  | inr (k, r) => stmt_fault w g vs (PShow e) k (Some r)
  end.
Proof.
  assert (D : match (match m_expr w en e with inl c => inl (w_default w, cow_val c) | inr t => inr t end) with
    | inl (f, v) => forall m, refuses (f v) m -> stmt_fault w g vs (PShow e) KFormat m
    | inr (k, r) => stmt_fault w g vs (PShow e) k (Some r) end).
  { pose proof (expr_told e) as K. destruct (m_expr w en e) as [c|[k r]]; [intros m R; eapply sf_default; eauto|now constructor]. }
  destruct e as [a|e f [l|]]; try exact D. clear D. cbn [m_show]. pose proof (expr_told e) as K. destruct (m_expr w en e) as [c|[k r]]; [|constructor; now apply ef_receiver].
  destruct (w_function w f) as [[fm|fl]|] eqn:Ef.
  - intros m R. eapply sf_formatter; eauto.
  - pose proof (call_told e fl (cow_val c) [] K) as C. destruct (m_call en fl (cow_val c) []) as [u|[k r]].
    + intros m R. destruct C as (av & avs & K1 & K2 & K3). eapply sf_default; [|exact R]. eapply hv_call; eauto.
    + constructor. eapply ef_call; eauto.
  - now constructor.
Qed.
End Here.
Lemma expr_fault_told en g vs e k r : in_sight en g vs -> m_expr w en e = inr (k, r) -> expr_fault w g vs e k r.
Proof. intros H E. pose proof (expr_told en g vs H e) as K. now rewrite E in K. Qed.
Lemma expr_value_told en g vs e c : in_sight en g vs -> m_expr w en e = inl c -> has_value w g vs e (cow_val c).
Proof. intros H E. pose proof (expr_told en g vs H e) as K. now rewrite E in K. Qed.

(** ** Statements *)
Variable c0 : globals.
Variable root : list pstmt.
Variable rname : option str.
Notation blames := (blames w c0 root rname).
Notation reached := (reached w c0 root rname).

Section Template.
Variable inc : option meaning.
Variable tname : option str.
Variable l0 : list pstmt.
Variable g : globals.
Variable vs0 : vars.
Variable depth : nat.
Hypothesis Hr : reached tname l0 g vs0 depth.
Hypothesis Hd : inc = None -> N.of_nat (S depth) = N.max 1 (w_limit w).
Hypothesis Hinc : forall mrun m l g' vs en asked e, inc = Some mrun -> reached (Some m) l g' vs (S depth) -> in_sight en g' vs ->
  ends (mrun l (Some m) en asked) e -> blames e.
Notation m_stmt := (m_stmt w inc tname).
Notation m_scope := (m_scope w inc tname).

Definition truthful (s : pstmt) : Prop := forall en vs asked e, in_sight en g vs ->
  (forall s' vs', within w g [s] vs s' vs' -> within w g l0 vs0 s' vs') -> ends (m_stmt s en asked) e -> blames e.
Lemma within_one l s : In s l -> forall vs s' vs', within w g [s] vs s' vs' -> within w g l vs s' vs'.
Proof.
  intros I vs s' vs' H.
  assert (J : forall x, In x [s] -> In x l) by (intros x [->|[]]; exact I).
  destruct H; [eapply wi_here|eapply wi_then|eapply wi_else|eapply wi_for|eapply wi_entries|eapply wi_with]; eauto.
Qed.
Lemma scope_truthful l : Forall truthful l -> forall en vs asked e, in_sight en g vs ->
  (forall s' vs', within w g l vs s' vs' -> within w g l0 vs0 s' vs') -> ends (m_scope l en asked) e -> blames e.
Proof.
  intros H en vs asked e Hen. revert asked. induction H as [|s l Hs Hl IH]; intros asked W E; cbn [Meaning.m_scope ends] in E; [contradiction|].
  apply ends_bind in E as [E|(a & E)].
  - eapply Hs; [exact Hen| |exact E]. intros s' vs' K. apply W. eapply within_one; [now left|exact K].
  - eapply IH; [|exact E]. intros s' vs' K. apply W.
    assert (J : forall x, In x l -> In x (s :: l)) by (intros x I; now right).
    destruct K; [eapply wi_here|eapply wi_then|eapply wi_else|eapply wi_for|eapply wi_entries|eapply wi_with]; eauto.
Qed.
Lemma each_truthful body en rounds e : forall asked, ends (m_each body en rounds asked) e -> exists b asked', In b rounds /\ ends (body (b :: en) asked') e.
Proof.
  induction rounds as [|b rounds IH]; intros asked E; cbn [m_each ends] in E; [contradiction|]. apply ends_bind in E as [E|(a & E)].
  - exists b, asked. split; [now left|exact E].
  - destruct (IH a E) as (b' & asked' & I & K). exists b', asked'. split; [now right|exact K].
Qed.
Lemma item_rounds_in item o l b : forall k, In b (item_rounds item o k l) -> exists i v, nth_error l i = Some v /\ b = BItem item o v (k + i) (length l - S i).
Proof.
  induction l as [|x l IH]; intros k I; cbn [item_rounds] in I; [contradiction|]. destruct I as [<-|I].
  - exists 0, x. split; [reflexivity|]. cbn [length]. f_equal; lia.
  - destruct (IH _ I) as (i & v & N & ->). exists (S i), v. split; [exact N|]. cbn [length]. f_equal; lia.
Qed.
Lemma entry_rounds_in kn vn o l b : forall k, In b (entry_rounds kn vn o k l) -> exists i key v, nth_error l i = Some (key, v) /\ b = BEntry kn vn o key v (k + i) (length l - S i).
Proof.
  induction l as [|[key x] l IH]; intros k I; cbn [entry_rounds] in I; [contradiction|]. destruct I as [<-|I].
  - exists 0, key, x. split; [reflexivity|]. cbn [length]. f_equal; lia.
  - destruct (IH _ I) as (i & key' & v & N & ->). exists (S i), key', v. split; [exact N|]. cbn [length]. f_equal; lia.
Qed.
Lemma blame s vs' k r e : within w g l0 vs0 s vs' -> stmt_fault w g vs' s k r -> mkerror k tname r None = e -> blames e.
Proof. intros W F <-. eapply bl_fault; [exact Hr|exact W|exact F|reflexivity]. Qed.

Lemma stmt_truthful s : truthful s.
Proof.
  induction s as [t|ex|m a|neg c thn els IHt IHe|x ex body IH|kn vn ex body IH|ex x body IH] using pstmt_ind'; intros en vs asked e Hen W E.
  - cbn in E. contradiction.
  - cbn [Meaning.m_stmt] in E. pose proof (show_told en g vs Hen ex) as K. destruct (m_show w en ex) as [[f v]|[k r]].
    + apply ends_bind in E as [E|(a & E)]; [|contradiction]. apply ends_fmt in E as (mm & R & E). injection E as <-.
      eapply blame; [apply W; apply wi_here; now left|exact (K mm R)|reflexivity].
    + eapply blame; [apply W; apply wi_here; now left|exact K|exact E].
  - assert (F : forall en' g' vs1 , (forall asked l' asked', w_find w asked m = inl (l', asked') -> reached (Some m) l' g' vs1 (S depth)) -> in_sight en' g' vs1 ->
      ends (match w_find w asked m with
      | inr r => m_fail tname (KRender, r)
      | inl (body, asked) =>
        match inc with
        | None => m_fail None (KRender, s2b "reached maximum include depth (" ++ show_N (w_limit w) ++ s2b ")")
        | Some meaning => meaning body (Some m) en' asked
        end
      end) e -> blames e).
    { intros en' g' vs1 R1 Hen' E1. destruct (w_find w asked m) as [[l' asked']|r] eqn:Ef.
      - destruct inc as [mrun|] eqn:Ei.
        + eapply Hinc; [reflexivity|eapply R1; exact Ef|exact Hen'|exact E1].
        + cbn in E1. subst e. eapply bl_deep; [exact Hr|apply W; apply wi_here; now left|now apply Hd|reflexivity|reflexivity|reflexivity].
      - eapply blame; [apply W; apply wi_here; now left|eapply sf_no_template; exact Ef|exact E1]. }
    destruct a as [ex|]; cbn [Meaning.m_stmt] in E.
    + destruct (m_expr w en ex) as [c|[k r]] eqn:Ex.
      * apply (F [BScope c] (GBorrowed (cow_val c)) []); [|constructor|exact E]. intros asked1 l' asked' Ef.
        eapply re_include_with; [exact Hr|apply W; apply wi_here; now left|eapply expr_value_told; eauto|exact Ef].
      * eapply blame; [apply W; apply wi_here; now left|apply sf_argument; eapply expr_fault_told; eauto|exact E].
    + apply (F en g vs); [|exact Hen|exact E]. intros asked1 l' asked' Ef.
      eapply re_include; [exact Hr|apply W; apply wi_here; now left|exact Ef].
  - rewrite m_stmt_if in E. destruct (m_expr w en c) as [cv|[k r]] eqn:Ex.
    + pose proof (expr_value_told _ _ _ _ _ Hen Ex) as Hv. destruct (xorb neg (as_bool (cow_val cv))) eqn:Eb.
      * eapply scope_truthful; [exact IHt|exact Hen| |exact E]. intros s' vs' K. apply W. eapply wi_then; [now left|exact Hv|exact Eb|exact K].
      * destruct els as [els|]; [|contradiction]. eapply scope_truthful; [exact IHe|exact Hen| |exact E]. intros s' vs' K. apply W.
        eapply wi_else; [now left|exact Hv|exact Eb|exact K].
    + eapply blame; [apply W; apply wi_here; now left|apply sf_if; eapply expr_fault_told; eauto|exact E].
  - rewrite m_stmt_for in E. destruct (m_expr w en ex) as [cv|[k r]] eqn:Ex.
    + pose proof (expr_value_told _ _ _ _ _ Hen Ex) as Hv. destruct (cow_val cv) as [| | | | |items|mm] eqn:Ev;
        try (eapply blame; [apply W; apply wi_here; now left|eapply sf_not_list; [exact Hv|intros ? K; discriminate K]|exact E]).
      apply each_truthful in E as (b & asked' & I & E). apply item_rounds_in in I as (i & v & N & ->).
      eapply scope_truthful; [exact IH|apply is_item; exact Hen| |exact E]. intros s' vs' K. apply W. eapply wi_for; [now left|exact Hv|exact N|exact K].
    + eapply blame; [apply W; apply wi_here; now left|apply sf_for; eapply expr_fault_told; eauto|exact E].
  - rewrite m_stmt_entries in E. destruct (m_expr w en ex) as [cv|[k r]] eqn:Ex.
    + pose proof (expr_value_told _ _ _ _ _ Hen Ex) as Hv. destruct (cow_val cv) as [| | | | |items|mm] eqn:Ev;
        try (eapply blame; [apply W; apply wi_here; now left|eapply sf_not_map; [exact Hv|intros ? K; discriminate K]|exact E]).
      apply each_truthful in E as (b & asked' & I & E). apply entry_rounds_in in I as (i & key & v & N & ->).
      eapply scope_truthful; [exact IH|apply is_entry; exact Hen| |exact E]. intros s' vs' K. apply W. eapply wi_entries; [now left|exact Hv|exact N|exact K].
    + eapply blame; [apply W; apply wi_here; now left|apply sf_entries; eapply expr_fault_told; eauto|exact E].
  - rewrite m_stmt_with in E. destruct (m_expr w en ex) as [cv|[k r]] eqn:Ex.
    + pose proof (expr_value_told _ _ _ _ _ Hen Ex) as Hv.
      eapply scope_truthful; [exact IH|apply is_name; exact Hen| |exact E]. intros s' vs' K. apply W. eapply wi_with; [now left|exact Hv|exact K].
    + eapply blame; [apply W; apply wi_here; now left|apply sf_with; eapply expr_fault_told; eauto|exact E].
Qed.
End Template.

Lemma template_truthful d : forall tname l g vs depth en asked e, reached tname l g vs depth -> in_sight en g vs ->
  d + depth = N.to_nat (w_limit w) - 1 -> ends (m_template w d l tname en asked) e -> blames e.
Proof.
  induction d as [|d IH]; intros tname l g vs depth en asked e Hr Hen Hd E; cbn [m_template] in E.
  - eapply (scope_truthful None tname l g vs l); [|exact Hen|auto|exact E]. apply Forall_forall. intros s _.
    eapply stmt_truthful; [exact Hr|intros _; lia|discriminate].
  - eapply (scope_truthful (Some (m_template w d)) tname l g vs l); [|exact Hen|auto|exact E]. apply Forall_forall. intros s _.
    eapply stmt_truthful; [exact Hr|discriminate|]. intros mrun m l' g' vs' en' asked' e' Em R' Hen' E'. injection Em as <-. eapply IH; eauto. lia.
Qed.
Theorem render_truthful e : ends (m_render w root rname (start c0)) e -> blames e.
Proof.
  unfold m_render. intros E. apply ends_bind in E as [E|(a & E)]; [|contradiction].
  eapply template_truthful; [apply re_root|apply is_start| |exact E]. lia.
Qed.
End Fault.
