(** Inlining of [include]s (C48), on the meaning of templates. *)
From Verif Require Import Base Ext Errors Value Ast Fmt Stack Filters Render RenderProof Meaning MeaningProof DepthProof RefactorSpec Refactor Props14.

Section Inline.
Context `{X : Ext}.
Variable limit : N.
(** The error of too many nested includes. *)
Definition too_deep (e : error) : Prop := e_kind e = KRender /\ e_reason e = Some (s2b "reached maximum include depth (" ++ show_N limit ++ s2b ")").
Definition like (e e' : error) : Prop := e_kind e = e_kind e' /\ e_reason e = e_reason e'.
(** [y] does what [x] does, unless [x] ends because it is too deep; the template named by an error may differ. *)
Definition as_far {A} (x y : res A) : Prop :=
  match x with
  | Ok a => y = Ok a
  | Err e => too_deep e \/ exists e', y = Err e' /\ like e e'
  | r => y = r
  end.
Definition leads {A} (x y : rt A) : Prop := forall buf, as_far (seen (run_string buf x)) (seen (run_string buf y)).
Lemma as_far_refl {A} (x : res A) : as_far x x.
Proof. destruct x; cbn; auto. right. eexists. split; [reflexivity|split; reflexivity]. Qed.
Lemma leads_refl {A} (x : rt A) : leads x x.
Proof. intros buf. apply as_far_refl. Qed.
Lemma leads_trans {A} (x y z : rt A) : leads x y -> leads y z -> leads x z.
Proof.
  intros H1 H2 buf. specialize (H1 buf). specialize (H2 buf). destruct (seen (run_string buf x)) as [p|e| |]; cbn [as_far] in *.
  - rewrite H1 in H2. exact H2.
  - destruct H1 as [H1|(e' & E & K & R)]; [now left|]. rewrite E in H2. cbn [as_far] in H2. destruct H2 as [(T1 & T2)|(e2 & E2 & K2 & R2)].
    + left. split; congruence.
    + right. exists e2. split; [exact E2|]. split; congruence.
  - rewrite H1 in H2. exact H2.
  - rewrite H1 in H2. exact H2.
Qed.
Lemma leads_bind {A B} (x y : rt A) (f g : A -> rt B) : leads x y -> (forall a, leads (f a) (g a)) -> leads (rbind x f) (rbind y g).
Proof.
  intros H Hf buf. rewrite !run_string_bind. specialize (H buf).
  destruct (run_string buf x) as [b [a|e| |]], (run_string buf y) as [b' [a'|e'| |]]; cbn [seen as_far] in H |- *; try discriminate H; auto.
  all: try (injection H as -> ->; apply Hf).
  all: destruct H as [H|(e2 & E & H)]; [now left|try discriminate E]. injection E as ->. right. eauto.
Qed.
Lemma leads_fail {A} n n' t : @leads A (m_fail n t) (m_fail n' t).
Proof. intros buf. right. eexists. split; [reflexivity|]. split; reflexivity. Qed.
Lemma leads_deep {A} n (y : rt A) : leads (m_fail n (KRender, s2b "reached maximum include depth (" ++ show_N limit ++ s2b ")")) y.
Proof. intros buf. left. split; reflexivity. Qed.
Lemma leads_fmt {B} (p : fmt_prog) n n' (k : unit -> rt B) :
  leads (let% u := run_fmt p (fun m => Err (mkerror KFormat n m None)) in k u) (let% u := run_fmt p (fun m => Err (mkerror KFormat n' m None)) in k u).
Proof.
  apply leads_bind; [|intros; apply leads_refl]. induction p as [|m|s o IHo e IHe]; intros buf; cbn [run_fmt run_string]; [apply as_far_refl| |apply IHo].
  right. eexists. split; [reflexivity|]. split; reflexivity.
Qed.
Lemma each_leads f g en bs : (forall en h, leads (f en h) (g en h)) -> forall h, leads (m_each f en bs h) (m_each g en bs h).
Proof. intros E. induction bs as [|b bs IH]; intros h; cbn [m_each]; [apply leads_refl|]. apply leads_bind; auto. Qed.

Variables w1 w2 : world.
Hypothesis Hf : forall n, w_function w1 n = w_function w2 n.
Hypothesis Hd : w_default w1 = w_default w2.
Hypothesis Hl1 : w_limit w1 = limit.
Hypothesis Hl2 : w_limit w2 = limit.
Variable find : str -> list pstmt -> Prop.
Hypothesis Ht : forall asked n, match w_find w1 asked n, w_find w2 asked n with
  | inl (b1, h1), inl (b2, h2) => (forall b, find n b -> b = b1) /\ inlines find b1 b2 /\ h1 = asked /\ h2 = asked | inr r1, inr r2 => (forall b, ~ find n b) /\ r1 = r2 | _, _ => False end.

(** The same statements, in two worlds. *)
Section Stmts.
Variables v1 v2 : world.
Hypothesis Vf : forall n, w_function v1 n = w_function v2 n.
Hypothesis Vd : w_default v1 = w_default v2.
Hypothesis V1 : w_limit v1 = limit.
Hypothesis V2 : w_limit v2 = limit.
Variables inc1 inc2 : option meaning.
Hypothesis Hi : forall asked n k1 k2 en, leads
  (match w_find v1 asked n with inr r => m_fail k1 (KRender, r) | inl (b, h) => match inc1 with None => m_fail None (KRender, s2b "reached maximum include depth (" ++ show_N (w_limit v1) ++ s2b ")") | Some m => m b (Some n) en h end end)
  (match w_find v2 asked n with inr r => m_fail k2 (KRender, r) | inl (b, h) => match inc2 with None => m_fail None (KRender, s2b "reached maximum include depth (" ++ show_N (w_limit v2) ++ s2b ")") | Some m => m b (Some n) en h end end).
Variables n1 n2 : option str.
Lemma stmt_leads : forall s en asked, leads (m_stmt v1 inc1 n1 s en asked) (m_stmt v2 inc2 n2 s en asked).
Proof.
  pose proof (agree_expr v1 v2 Vf) as AE. pose proof (agree_show v1 v2 Vf Vd) as AS.
  assert (SC : forall l, Forall (fun x => forall en asked, leads (m_stmt v1 inc1 n1 x en asked) (m_stmt v2 inc2 n2 x en asked)) l ->
    forall en asked, leads (m_scope v1 inc1 n1 l en asked) (m_scope v2 inc2 n2 l en asked)).
  { induction 1 as [|x l Hx _ IHl]; intros en asked; cbn [m_scope]; [apply leads_refl|]. apply leads_bind; auto. }
  intros s. induction s as [t|e|name arg|neg c thn els IHt IHe|item e b IHb|kn vn e b IHb|e name b IHb] using pstmt_ind'; intros en asked.
  - intros buf. cbn [m_stmt run_string]. apply as_far_refl.
  - cbn [m_stmt]. rewrite AS. destruct (m_show v2 en e) as [[f v]|t]; [apply leads_fmt|apply leads_fail].
  - cbn [m_stmt]. destruct arg as [e|]; [|apply Hi]. rewrite AE. destruct (m_expr v2 en e); [apply Hi|apply leads_fail].
  - rewrite !m_stmt_if, AE. destruct (m_expr v2 en c) as [v|]; [|apply leads_fail].
    destruct (xorb _ _); [now apply SC|]. destruct els as [l|]; [now apply SC|apply leads_refl].
  - rewrite !m_stmt_for, AE. destruct (m_expr v2 en e) as [v|]; [|apply leads_fail]. destruct (cow_val v); try apply leads_fail. apply each_leads. now apply SC.
  - rewrite !m_stmt_entries, AE. destruct (m_expr v2 en e) as [v|]; [|apply leads_fail]. destruct (cow_val v); try apply leads_fail. apply each_leads. now apply SC.
  - rewrite !m_stmt_with, AE. destruct (m_expr v2 en e) as [v|]; [|apply leads_fail]. now apply SC.
Qed.
Lemma scope_leads l : forall en asked, leads (m_scope v1 inc1 n1 l en asked) (m_scope v2 inc2 n2 l en asked).
Proof. induction l as [|x l IHl]; intros en asked; cbn [m_scope]; [apply leads_refl|]. apply leads_bind; [apply stmt_leads|auto]. Qed.
End Stmts.

(** A larger limit. *)
Lemma deeper_template v : w_limit v = limit -> forall d b n n' en h, leads (m_template v d b n en h) (m_template v (S d) b n' en h).
Proof.
  intros Vl. induction d as [|d IH]; intros b n n' en h; change (m_template v (S ?d) b n' en h) with (m_scope v (Some (m_template v d)) n' b en h).
  - cbn [m_template]. apply scope_leads; auto. intros asked m k1 k2 en'. destruct (w_find v asked m) as [[b0 h0]|r]; [|apply leads_fail]. rewrite Vl. apply leads_deep.
  - change (m_template v (S (S d)) b n' en h) with (m_scope v (Some (m_template v (S d))) n' b en h).
    change (m_template v (S d) b n en h) with (m_scope v (Some (m_template v d)) n b en h).
    apply scope_leads; auto. intros asked m k1 k2 en'. destruct (w_find v asked m) as [[b0 h0]|r]; [|apply leads_fail]. apply IH.
Qed.
Definition inc_of (w : world) (d : nat) : option meaning := match d with 0 => None | S d' => Some (m_template w d') end.
Lemma template_eq w d b n en h : m_template w d b n en h = m_scope w (inc_of w d) n b en h.
Proof. now destruct d. Qed.
Lemma inline_template d : forall b1 b2, inlines find b1 b2 -> forall n1 n2 en h, leads (m_template w1 d b1 n1 en h) (m_template w2 d b2 n2 en h).
Proof.
  induction d as [d IHd] using lt_wf_ind.
  assert (HI : forall asked n k1 k2 en, leads
    (match w_find w1 asked n with inr r => m_fail k1 (KRender, r) | inl (b, h) => match inc_of w1 d with None => m_fail None (KRender, s2b "reached maximum include depth (" ++ show_N (w_limit w1) ++ s2b ")") | Some m => m b (Some n) en h end end)
    (match w_find w2 asked n with inr r => m_fail k2 (KRender, r) | inl (b, h) => match inc_of w2 d with None => m_fail None (KRender, s2b "reached maximum include depth (" ++ show_N (w_limit w2) ++ s2b ")") | Some m => m b (Some n) en h end end)).
  { intros asked n k1 k2 en. specialize (Ht asked n). destruct (w_find w1 asked n) as [[b1 h1]|r1], (w_find w2 asked n) as [[b2 h2]|r2]; try contradiction.
    - destruct Ht as (_ & I & -> & ->). rewrite Hl1, Hl2. destruct d as [|d]; cbn [inc_of]; [apply leads_refl|]. apply IHd; auto.
    - destruct Ht as (_ & ->). apply leads_fail. }
  assert (Same : forall l n1 n2 en h, leads (m_scope w1 (inc_of w1 d) n1 l en h) (m_scope w2 (inc_of w2 d) n2 l en h)) by (intros; apply scope_leads; auto).
  assert (Self : forall l n1 n2 en h, leads (m_scope w1 (inc_of w1 d) n1 l en h) (m_scope w1 (inc_of w1 d) n2 l en h)).
  { intros. apply scope_leads; auto. intros asked n k1 k2 en'. destruct (w_find w1 asked n) as [[b0 h0]|r]; [apply leads_refl|apply leads_fail]. }
  assert (Law : forall b1 b2, inlines find b1 b2 -> forall n1 n2 en h, leads (m_scope w1 (inc_of w1 d) n1 b1 en h) (m_scope w1 (inc_of w1 d) n2 b2 en h)).
  { induction 1 as [l|a b c _ IH1 _ IH2|a a' b b' _ IH1 _ IH2|neg c a a' b b' _ IH1 _ IH2|i e a a' _ IH|k v e a a' _ IH|e x a a' _ IH|m a Hm]; intros n1 n2 en h.
    - apply Self.
    - exact (leads_trans _ _ _ (IH1 n1 n1 en h) (IH2 n1 n2 en h)).
    - rewrite !m_scope_app. apply leads_bind; auto.
    - rewrite !m_scope_one, !m_stmt_if. destruct (m_expr w1 en c) as [v|t]; [|apply leads_fail]. destruct (xorb _ _); [apply IH1|].
      specialize (IH2 n1 n2 en h). destruct b, b'; exact IH2.
    - rewrite !m_scope_one, !m_stmt_for. destruct (m_expr w1 en e) as [v|t]; [|apply leads_fail]. destruct (cow_val v); try apply leads_fail. apply each_leads; auto.
    - rewrite !m_scope_one, !m_stmt_entries. destruct (m_expr w1 en e) as [c|t]; [|apply leads_fail]. destruct (cow_val c); try apply leads_fail. apply each_leads; auto.
    - rewrite !m_scope_one, !m_stmt_with. destruct (m_expr w1 en e) as [c|t]; [auto|apply leads_fail].
    - rewrite m_scope_one. cbn [m_stmt]. specialize (Ht h m). destruct (w_find w1 h m) as [[b1 h1]|r1], (w_find w2 h m) as [[b2 h2]|r2]; try contradiction.
      + destruct Ht as (F & _ & -> & _). apply F in Hm as ->. destruct d as [|d]; cbn [inc_of]; [rewrite Hl1; apply leads_deep|].
        apply (deeper_template w1 Hl1 d b1 (Some m) n2 en h).
      + destruct Ht as (F & _). now destruct (F a). }
  intros b1 b2 I n1 n2 en h. rewrite !template_eq. eapply leads_trans; [apply (Law _ _ I n1 n1)|apply Same].
Qed.
Lemma inline_render b1 b2 n1 n2 en : inlines find b1 b2 -> leads (m_render w1 b1 n1 en) (m_render w2 b2 n2 en).
Proof. intros I. unfold m_render. rewrite Hl1, Hl2. apply leads_bind; [now apply inline_template|]. intros ?. apply leads_refl. Qed.
End Inline.
