(** Layout does not matter: proofs. *)
From Verif Require Import Base Utf8 Ext Errors Syntax SearchSpec SyntaxSpec Value Ast Lexer LexSpec Wp GrammarSpec LayoutSpec CompileFacts ParseComplete ParseMain Meaning.

Section Layout.
Context `{X : Ext}.

Lemma map_app_inv {A B C} (f : A -> C) (g : B -> C) (a b : list A) (l : list B) : map f (a ++ b) = map g l ->
  exists a' b', l = a' ++ b' /\ map f a = map g a' /\ map f b = map g b'.
Proof.
  revert l. induction a as [|x a IH]; intros l H; [exists [], l; auto|]. destruct l as [|y l]; [discriminate|]. cbn in H. injection H as H1 H2.
  destruct (IH l H2) as (a' & b' & -> & E1 & E2). exists (y :: a'), b'. cbn. rewrite H1, E1. auto.
Qed.

(** ** The grammar depends on the texts only *)
Section Transfer.
Variables s1 s2 : str.
Notation sense1 := (sense s1). Notation sense2 := (sense s2).
Definition same (a b : list tok) : Prop := map sense1 a = map sense2 b.
Lemma same_nil b : same [] b -> b = [].
Proof. now destruct b. Qed.
Lemma same_cons t sp a b : same ((t, sp) :: a) b -> exists sp' b', b = (t, sp') :: b' /\ (is_delimiter t = false -> txt s1 sp = txt s2 sp') /\ same a b'.
Proof.
  unfold same. destruct b as [|[t' sp'] b]; cbn [map]; [discriminate|]. unfold sense at 1 2. cbn [fst snd]. intros H. injection H as <- H1 H2.
  exists sp', b. split; [reflexivity|]. split; [|exact H2]. intros E. now rewrite E in H1.
Qed.
Lemma same_one t sp b : same [(t, sp)] b -> exists sp', b = [(t, sp')] /\ (is_delimiter t = false -> txt s1 sp = txt s2 sp').
Proof. intros H. apply same_cons in H as (sp' & b' & -> & E & H). apply same_nil in H as ->. eauto. Qed.
Lemma same_app a b l : same (a ++ b) l -> exists a' b', l = a' ++ b' /\ same a a' /\ same b b'.
Proof. apply map_app_inv. Qed.

Ltac sam := repeat match goal with
  | H : same [] _ |- _ => apply same_nil in H; subst
  | H : same [_] _ |- _ => let sp := fresh "sp" in let E := fresh "Et" in apply same_one in H as (sp & -> & E); cbn [is_delimiter] in E; try specialize (E eq_refl)
  | H : same (_ :: _) _ |- _ => let sp := fresh "sp" in let b := fresh "b" in let E := fresh "Et" in apply same_cons in H as (sp & b & -> & E & H); cbn [is_delimiter] in E; try specialize (E eq_refl)
  | H : same (_ ++ _) _ |- _ => let a := fresh "a" in let b := fresh "b" in let H' := fresh "Hs" in apply same_app in H as (a & b & -> & H' & H)
  end.

Lemma t_access ts a : g_access s1 ts a -> forall ts', same ts ts' -> exists a', g_access s2 ts' a' /\
  (match a with AIndex i _ => KIndex i | AKey id => KName (word s1 (id_span id)) end) = (match a' with AIndex i _ => KIndex i | AKey id => KName (word s2 (id_span id)) end).
Proof.
  destruct 1 as [sp v Hi|sp]; intros ts' H; sam.
  - eexists. split; [constructor; rewrite <- Et; exact Hi|]. reflexivity.
  - eexists. split; [constructor|]. cbn [id_span]. f_equal. exact Et.
Qed.
Lemma t_members ts ms : g_members s1 ts ms -> forall ts', same ts ts' -> exists ms', g_members s2 ts' ms' /\ map (bare_step s1) ms = map (bare_step s2) ms'.
Proof.
  induction 1 as [|sp ts a ts0 ms Ha Hm IH|sp ts a ts0 ms Ha Hm IH]; intros ts' H; sam.
  - exists []. split; [constructor|reflexivity].
  - destruct (t_access _ _ Ha _ Hs) as (a' & Ga & Ea). destruct (IH _ H) as (ms' & Gm & Em). eexists. split; [econstructor; eauto|].
    cbn [map]. rewrite Em. unfold bare_step at 1 3. cbn [mb_op mb_access]. now rewrite Ea.
  - destruct (t_access _ _ Ha _ Hs) as (a' & Ga & Ea). destruct (IH _ H) as (ms' & Gm & Em). eexists. split; [econstructor; eauto|].
    cbn [map]. rewrite Em. unfold bare_step at 1 3. cbn [mb_op mb_access]. now rewrite Ea.
Qed.
Lemma t_base ts b : g_base s1 ts b -> forall ts', same ts ts' -> exists b', g_base s2 ts' b' /\ bare_base s1 b = bare_base s2 b'.
Proof.
  destruct 1 as [sp ts ms Hm|sp E|sp E|sp v E|sp0 sp v E|sp0 sp v E|sp s E]; intros ts' H; sam.
  - destruct (t_members _ _ Hm _ H) as (ms' & Gm & Em). eexists. split; [constructor; eauto|]. cbn [bare_base mb_access access_span id_span]. rewrite Em. f_equal. exact Et.
  - eexists. split; [apply gb_true; congruence|reflexivity].
  - eexists. split; [apply gb_false; congruence|reflexivity].
  - eexists. split; [apply gb_num; rewrite <- Et; exact E|reflexivity].
  - eexists. split; [apply gb_plus; rewrite <- Et0; exact E|reflexivity].
  - eexists. split; [apply gb_minus; rewrite <- Et0; exact E|reflexivity].
  - eexists. split; [apply gb_str; rewrite <- Et; exact E|reflexivity].
Qed.
Lemma t_args ts bs : g_args s1 ts bs -> forall ts', same ts ts' -> exists bs', g_args s2 ts' bs' /\ map (bare_base s1) bs = map (bare_base s2) bs'.
Proof.
  induction 1 as [ts b Hb|ts b c ts0 bs Hb Ha IH]; intros ts' H; sam.
  - destruct (t_base _ _ Hb _ H) as (b' & G & E). eexists. split; [constructor; eauto|]. cbn [map]. now rewrite E.
  - destruct (t_base _ _ Hb _ Hs) as (b' & G & E). destruct (IH _ H) as (bs' & G' & E'). eexists. split; [eapply gr_more; eauto|]. cbn [map]. now rewrite E, E'.
Qed.
Lemma t_expr ts e : g_expr s1 ts e -> forall ts', same ts ts' -> exists e', g_expr s2 ts' e' /\ bare_expr s1 e = bare_expr s2 e'.
Proof.
  induction 1 as [ts b Hb|ts e p n He IH|ts e p n c ts0 bs He IH Ha]; intros ts' H; sam.
  - destruct (t_base _ _ Hb _ H) as (b' & G & E). eexists. split; [constructor; eauto|]. cbn [bare_expr]. now rewrite E.
  - destruct (IH _ Hs) as (e' & G & E). eexists. split; [eapply ge_call; eauto|]. cbn [bare_expr id_span]. rewrite E. f_equal. exact Et0.
  - destruct (IH _ Hs) as (e' & G & E). destruct (t_args _ _ Ha _ H) as (bs' & G' & E'). eexists. split; [eapply ge_call_args; eauto|].
    cbn [bare_expr id_span a_values]. rewrite E, E'. f_equal. exact Et0.
Qed.
Lemma t_kw s ts : kw s1 s ts -> forall ts', same ts ts' -> kw s2 s ts'.
Proof. intros (sp & -> & E) ts' H. sam. eexists. split; [reflexivity|]. congruence. Qed.
Lemma t_cond ts n e : g_cond s1 ts n e -> forall ts', same ts ts' -> exists e', g_cond s2 ts' n e' /\ bare_expr s1 e = bare_expr s2 e'.
Proof.
  destruct 1 as [ts e He|k ts e Hk He]; intros ts' H; sam; destruct (t_expr _ _ He _ H) as (e' & G & E); eexists; (split; [|exact E]).
  - now constructor.
  - constructor; auto. eapply t_kw; eauto.
Qed.
Lemma t_vars ts vs : g_vars ts vs -> forall ts', same ts ts' -> exists vs', g_vars ts' vs' /\
  forall e e' b b', bare_expr s1 e = bare_expr s2 e' -> map (bare_stmt s1) b = map (bare_stmt s2) b' -> bare_stmt s1 (SFor vs e b) = bare_stmt s2 (SFor vs' e' b').
Proof.
  destruct 1 as [sp|k c v]; intros ts' H; sam; (eexists; split; [constructor|]); intros e e' b b' E1 E2; cbn [bare_stmt id_span]; rewrite E1, E2; f_equal; assumption.
Qed.
Lemma t_tag i t : tag_block i t -> forall t', same t t' -> exists i', tag_block i' t' /\ same i i'.
Proof. intros (b & e & ->) t' H. sam. exists a. split; [|exact Hs]. eexists _, _. reflexivity. Qed.
Lemma t_string sp sp' s : txt s1 sp = txt s2 sp' -> string_lit (txt s1 sp) s -> string_lit (txt s2 sp') s.
Proof. now intros ->. Qed.

Lemma transfer :
  (forall ts s, g_stmt s1 ts s -> forall ts', same ts ts' -> exists s', g_stmt s2 ts' s' /\ bare_stmt s1 s = bare_stmt s2 s') /\
  (forall ts l, g_scope s1 ts l -> forall ts', same ts ts' -> exists l', g_scope s2 ts' l' /\ map (bare_stmt s1) l = map (bare_stmt s2) l') /\
  (forall ts e, g_else s1 ts e -> forall ts', same ts ts' -> exists e', g_else s2 ts' e' /\
     match e with Some l => Some (map (bare_stmt s1) l) | None => None end = match e' with Some l => Some (map (bare_stmt s2) l) | None => None end).
Proof.
  apply g_mut.
  - intros sp ts' H. sam. eexists. split; [constructor|]. cbn [bare_stmt]. f_equal. exact Et.
  - intros b ts e en He ts' H. sam. destruct (t_expr _ _ He _ Hs) as (e' & G & E). eexists. split; [constructor; eauto|]. cbn [bare_stmt]. now rewrite E.
  - intros t k sp s Hk Hl Ht ts' H. destruct (t_tag _ _ Ht _ H) as (i' & Gt & Hi). sam.
    eexists. split; [eapply gs_include; [eapply t_kw; eauto|rewrite <- Et; exact Hl|exact Gt]|]. reflexivity.
  - intros t k sp s w ts e Hk Hl Hw He Ht ts' H. destruct (t_tag _ _ Ht _ H) as (i' & Gt & Hi). sam. destruct (t_expr _ _ He _ Hi) as (e' & G & E).
    eexists. split; [eapply gs_include_with; [eapply t_kw; eauto|rewrite <- Et; exact Hl|exact (t_kw _ _ Hw _ Hs0)|exact G|exact Gt]|]. cbn [bare_stmt as_name]. now rewrite E.
  - intros t k ts n c body thn rest els Hk Hc Ht Hb IHb He IHe ts' H. sam. destruct (t_tag _ _ Ht _ Hs) as (i' & Gt & Hi). sam.
    destruct (t_cond _ _ _ Hc _ Hi) as (c' & Gc & Ec). destruct (IHb _ Hs0) as (b' & Gb & Eb). destruct (IHe _ H) as (e' & Ge & Ee).
    eexists. split; [eapply gs_if; [eapply t_kw; eauto|exact Gc|exact Gt|exact Gb|exact Ge]|]. cbn [bare_stmt]. now rewrite Ec, Eb, Ee.
  - intros t k vs vars i ts e body l t' k' Hk Hv Hi He Ht Hb IHb Hk' Ht' ts' H. sam. destruct (t_tag _ _ Ht _ Hs) as (i' & Gt & Hit). sam.
    destruct (t_vars _ _ Hv _ Hs2) as (v' & Gv & Ev). destruct (t_expr _ _ He _ Hit) as (e' & Ge & Ee). destruct (IHb _ Hs0) as (b' & Gb & Eb).
    destruct (t_tag _ _ Ht' _ H) as (i'' & Gt' & Hi').
    eexists. split; [eapply gs_for; [eapply t_kw; eauto|exact Gv|exact (t_kw _ _ Hi _ Hs3)|exact Ge|exact Gt|exact Gb|exact (t_kw _ _ Hk' _ Hi')|exact Gt']|]. now apply Ev.
  - intros t k ts e a n body l t' k' Hk He Ha Ht Hb IHb Hk' Ht' ts' H. sam. destruct (t_tag _ _ Ht _ Hs) as (i' & Gt & Hit). sam.
    destruct (t_expr _ _ He _ Hs2) as (e' & Ge & Ee). destruct (IHb _ Hs0) as (b' & Gb & Eb). destruct (t_tag _ _ Ht' _ H) as (i'' & Gt' & Hi').
    eexists. split; [eapply gs_with; [eapply t_kw; eauto|exact Ge|exact (t_kw _ _ Ha _ Hs3)|exact Gt|exact Gb|exact (t_kw _ _ Hk' _ Hi')|exact Gt']|].
    cbn [bare_stmt id_span]. rewrite Ee, Eb. f_equal. exact Et.
  - intros ts' H. sam. exists []. split; [constructor|reflexivity].
  - intros b r e ts l _ IH ts' H. sam. destruct (IH _ H) as (l' & G & E). exists l'. split; [now constructor|exact E].
  - intros ts s ts0 l _ IHs _ IHl ts' H. sam. destruct (IHs _ Hs) as (s' & G & E). destruct (IHl _ H) as (l' & G' & E'). exists (s' :: l'). split; [now constructor|]. cbn [map]. now rewrite E, E'.
  - intros t k Hk Ht ts' H. destruct (t_tag _ _ Ht _ H) as (i' & Gt & Hi). exists None. split; [|reflexivity]. econstructor; [eapply t_kw; eauto|exact Gt].
  - intros t k body l t' k' Hk Ht Hb IHb Hk' Ht' ts' H. sam. destruct (t_tag _ _ Ht _ Hs) as (i' & Gt & Hi). destruct (t_tag _ _ Ht' _ H) as (i'' & Gt' & Hi').
    destruct (IHb _ Hs0) as (b' & Gb & Eb). exists (Some b'). split; [|now rewrite Eb].
    eapply gel_else; [exact (t_kw _ _ Hk _ Hi)|exact Gt|exact Gb|exact (t_kw _ _ Hk' _ Hi')|exact Gt'].
  - intros t k i ts n c body thn rest els Hk Hi Hc Ht Hb IHb He IHe ts' H. sam. destruct (t_tag _ _ Ht _ Hs) as (i' & Gt & Hit). sam.
    destruct (t_cond _ _ _ Hc _ Hit) as (c' & Gc & Ec). destruct (IHb _ Hs0) as (b' & Gb & Eb). destruct (IHe _ H) as (e' & Ge & Ee).
    eexists. split; [eapply gel_elseif; [eapply t_kw; eauto|exact (t_kw _ _ Hi _ Hs2)|exact Gc|exact Gt|exact Gb|exact Ge]|]. cbn [map bare_stmt]. now rewrite Ec, Eb, Ee.
Qed.
End Transfer.

(** ** Comments can be put back *)

(** No comment begins inside of a tag. *)
Fixpoint tagged (inside : bool) (ts : list tok) : option bool :=
  match ts with
  | [] => Some inside
  | (t, _) :: ts' =>
    match t with
    | TBeginComment => if inside then None else tagged false ts'
    | TBeginExpr | TBeginBlock => tagged true ts'
    | TEndExpr | TEndBlock | TEndComment => tagged false ts'
    | _ => tagged inside ts'
    end
  end.
Lemma tagged_app i a b : tagged i (a ++ b) = match tagged i a with Some j => tagged j b | None => None end.
Proof.
  revert i. induction a as [|[t sp] a IH]; intros i; cbn [app tagged]; [reflexivity|]. destruct t; auto. destruct i; auto.
Qed.
Lemma tiling_tagged sx source full at_ md ts : tiling sx source full at_ md ts ->
  exists j, tagged (match md with MTag _ _ => true | _ => false end) (nonspace ts) = Some j.
Proof.
  induction 1 as [at_ md H|at_ md m n at' ts H1 H2 H3 H4 H5 H6 H7 Hm H8 H9 H10 H11 Hr IH|m n k b ts Ho Ht Hr IH|m n k md ts Ho Ht Hm Hr IH|m n t e path ts H1 H2 H3 H4 Hd Hl Hx Hr IH].
  - cbn. eauto.
  - cbn [nonspace List.filter is_space fst negb tagged]. destruct md as [trim|e b|]; auto.
  - destruct k; try discriminate Ho; cbn [nonspace List.filter tag_token is_space fst negb tagged after_open] in *; auto.
  - destruct k; try discriminate Ho; cbn [nonspace List.filter tag_token is_space fst negb tagged] in *; auto.
  - destruct t; try contradiction Hl; cbn [nonspace List.filter is_space fst negb tagged] in *; auto.
Qed.

(** A sequence of comments. *)
Inductive comments : list tok -> Prop :=
| cm_nil : comments []
| cm_more b r e ts : comments ts -> comments ((TBeginComment, b) :: (TRaw, r) :: (TEndComment, e) :: ts).
Lemma comments_app a b : comments a -> comments b -> comments (a ++ b).
Proof. induction 1; intros; cbn [app]; auto. constructor. auto. Qed.
Lemma comments_tagged a : comments a -> tagged false a = Some false.
Proof. induction 1; cbn [tagged]; auto. Qed.
Lemma wc_nil_inv a : without_comments a [] -> comments a.
Proof. remember [] as n. induction 1; try discriminate; constructor; auto. Qed.
Lemma wc_cons_inv f t ts : without_comments f (t :: ts) -> exists cs f', f = cs ++ t :: f' /\ comments cs /\ without_comments f' ts.
Proof.
  remember (t :: ts) as n eqn:En. intros H. revert t ts En. induction H as [|b r e a a' H IH|x a a' Hx H IH]; intros t ts En; try discriminate.
  - destruct (IH t ts En) as (cs & f' & -> & Hc & Hw). exists ((TBeginComment, b) :: (TRaw, r) :: (TEndComment, e) :: cs), f'.
    split; [reflexivity|]. split; [now constructor|exact Hw].
  - injection En as -> ->. exists [], a. split; [reflexivity|]. split; [constructor|exact H].
Qed.
Lemma wc_app_inv a : forall b f, without_comments f (a ++ b) -> exists fa fb, f = fa ++ fb /\ without_comments fa a /\ without_comments fb b.
Proof.
  induction a as [|t a IH]; intros b f H; [exists [], f; repeat split; [constructor|exact H]|]. cbn [app] in H.
  assert (Ht : fst t <> TBeginComment). { clear - H. remember (t :: a ++ b) as n eqn:En. induction H; try discriminate; auto. now injection En as -> ->. }
  apply wc_cons_inv in H as (cs & f' & -> & Hc & Hw). destruct (IH b f' Hw) as (fa & fb & -> & Ha & Hb).
  exists (cs ++ t :: fa), fb. split; [now rewrite <- app_assoc|]. split; [|exact Hb].
  clear - Hc Ha Ht. induction Hc; cbn [app]; constructor; auto.
Qed.

Variable source : str.
Lemma scope_before cs : comments cs -> forall ts l, g_scope source ts l -> g_scope source (cs ++ ts) l.
Proof. induction 1; intros ts0 l H'; cbn [app]; auto. constructor. auto. Qed.
Lemma scope_after cs : comments cs -> forall ts l, g_scope source ts l -> g_scope source (ts ++ cs) l.
Proof.
  intros Hc. assert (K : (forall ts s, g_stmt source ts s -> True) /\ (forall ts l, g_scope source ts l -> g_scope source (ts ++ cs) l) /\ (forall ts e, g_else source ts e -> True)).
  { apply g_mut; auto.
    - rewrite app_nil_l, <- (app_nil_r cs). apply scope_before; [exact Hc|constructor].
    - intros. cbn [app]. now constructor.
    - intros. rewrite <- app_assoc. now constructor. }
  apply K.
Qed.

(** Tokens of tags. *)
Definition inert (ts : list tok) : Prop := Forall (fun t => is_delimiter (fst t) = false) ts.
Lemma inert_app a b : inert a -> inert b -> inert (a ++ b).
Proof. intros. apply Forall_app. auto. Qed.
Ltac ine := repeat (apply inert_app || (apply Forall_cons; [reflexivity|]) || apply Forall_nil || assumption); auto.
Lemma inert_access ts a : g_access source ts a -> inert ts.
Proof. destruct 1; ine. Qed.
Lemma inert_members ts a : g_members source ts a -> inert ts.
Proof. induction 1; try apply inert_access in H; ine. Qed.
Lemma inert_base ts a : g_base source ts a -> inert ts.
Proof. destruct 1; try apply inert_members in H; ine. Qed.
Lemma inert_args ts a : g_args source ts a -> inert ts.
Proof. induction 1; apply inert_base in H; ine. Qed.
Lemma inert_expr ts a : g_expr source ts a -> inert ts.
Proof. induction 1; try apply inert_base in H; try apply inert_args in H0; ine. Qed.
Lemma inert_kw s ts : kw source s ts -> inert ts.
Proof. intros (sp & -> & _). ine. Qed.
Lemma inert_cond ts n a : g_cond source ts n a -> inert ts.
Proof. destruct 1 as [ts e He|k ts e Hk He]; apply inert_expr in He; try apply inert_kw in Hk; ine. Qed.
Lemma inert_vars ts a : g_vars ts a -> inert ts.
Proof. destruct 1; ine. Qed.

(** Inside a tag there are no comments. *)
Lemma inside_exact i e f : inert i -> (e = TEndExpr \/ e = TEndBlock) -> forall sp, without_comments f (i ++ [(e, sp)]) -> forall j, tagged true f = Some j ->
  exists cs, f = i ++ [(e, sp)] ++ cs /\ comments cs /\ j = false.
Proof.
  intros Hi He sp. revert f. induction Hi as [|[t s] i Ht Hi IH]; intros f Hw j Hj; cbn [app] in *.
  - apply wc_cons_inv in Hw as (cs & f' & -> & Hc & Hw). inversion Hc; subst; [|discriminate Hj]. apply wc_nil_inv in Hw. exists f'. split; [reflexivity|]. split; [exact Hw|].
    cbn [app tagged] in Hj. destruct He as [->| ->]; rewrite (comments_tagged _ Hw) in Hj; congruence.
  - apply wc_cons_inv in Hw as (cs & f' & -> & Hc & Hw). inversion Hc; subst; [|discriminate Hj]. cbn [app tagged] in Hj.
    destruct (IH f' Hw j) as (cs & -> & Hcs & ->). { destruct t; try discriminate Ht; exact Hj. } exists cs. auto.
Qed.
Lemma bracket_exact b e i f bs es : (b = TBeginExpr \/ b = TBeginBlock) -> (e = TEndExpr \/ e = TEndBlock) -> inert i ->
  without_comments f ((b, bs) :: i ++ [(e, es)]) -> forall j, tagged false f = Some j ->
  exists cs cs', f = cs ++ ((b, bs) :: i ++ [(e, es)]) ++ cs' /\ comments cs /\ comments cs' /\ j = false.
Proof.
  intros Hb He Hi Hw j Hj. apply wc_cons_inv in Hw as (cs & f' & -> & Hc & Hw). rewrite tagged_app, (comments_tagged _ Hc) in Hj. cbn [tagged] in Hj.
  destruct (inside_exact i e f' Hi He es Hw j) as (cs' & -> & Hc' & ->). { destruct Hb as [->| ->]; exact Hj. }
  exists cs, cs'. split; [|auto]. cbn [app]. now rewrite <- !app_assoc.
Qed.
Lemma tag_exact i t f : tag_block i t -> inert i -> without_comments f t -> forall j, tagged false f = Some j ->
  exists cs cs', f = cs ++ t ++ cs' /\ comments cs /\ comments cs' /\ j = false.
Proof. intros (b & e & ->) Hi Hw j Hj. eapply bracket_exact; eauto. Qed.

(** [around P f]: [f] is something with [P] between comments. *)
Definition around (P : list tok -> Prop) (f : list tok) (j : bool) : Prop :=
  exists cs ts cs', f = cs ++ ts ++ cs' /\ comments cs /\ comments cs' /\ P ts /\ j = false.

Ltac split_wc := repeat match goal with
  | H : without_comments _ (_ ++ _) |- _ => let fa := fresh "fa" in let fb := fresh "fb" in let Ha := fresh "Hwa" in let Hb := fresh "Hwb" in
      apply wc_app_inv in H as (fa & fb & -> & Ha & Hb)
  end.
Lemma tagged_split i a b j : tagged i (a ++ b) = Some j -> exists k, tagged i a = Some k /\ tagged k b = Some j.
Proof. rewrite tagged_app. destruct (tagged i a); [eauto|discriminate]. Qed.

Lemma put_back :
  (forall ts s, g_stmt source ts s -> forall f j, without_comments f ts -> tagged false f = Some j -> around (fun ts => g_stmt source ts s) f j) /\
  (forall ts l, g_scope source ts l -> forall f j, without_comments f ts -> tagged false f = Some j -> g_scope source f l /\ j = false) /\
  (forall ts e, g_else source ts e -> forall f j, without_comments f ts -> tagged false f = Some j -> around (fun ts => g_else source ts e) f j).
Proof.
  apply g_mut.
  - intros sp f j Hw Hj. apply wc_cons_inv in Hw as (cs & f' & -> & Hc & Hw). apply wc_nil_inv in Hw.
    rewrite tagged_app, (comments_tagged _ Hc) in Hj. cbn [tagged] in Hj. rewrite (comments_tagged _ Hw) in Hj. injection Hj as <-.
    exists cs, [(TRaw, sp)], f'. repeat split; auto. constructor.
  - intros b ts e en He f j Hw Hj. destruct (bracket_exact _ _ _ _ _ _ (or_introl eq_refl) (or_introl eq_refl) (inert_expr _ _ He) Hw j Hj) as (cs & cs' & -> & H1 & H2 & ->).
    eexists cs, _, cs'. repeat split; eauto. now constructor.
  - intros t k sp s Hk Hl Ht f j Hw Hj. destruct (tag_exact _ _ _ Ht ltac:(apply inert_kw in Hk; ine) Hw j Hj) as (cs & cs' & -> & H1 & H2 & ->).
    exists cs, t, cs'. repeat split; auto. eapply gs_include; eauto.
  - intros t k sp s w ts e Hk Hl Hw' He Ht f j Hw Hj.
    destruct (tag_exact _ _ _ Ht ltac:(apply inert_kw in Hk; apply inert_kw in Hw'; apply inert_expr in He; ine) Hw j Hj) as (cs & cs' & -> & H1 & H2 & ->).
    exists cs, t, cs'. repeat split; auto. eapply gs_include_with; eauto.
  - intros t k ts n c body thn rest els Hk Hc Ht Hb IHb He IHe f j Hw Hj. split_wc.
    apply tagged_split in Hj as (j1 & J1 & Hj). apply tagged_split in Hj as (j2 & J2 & J3).
    destruct (tag_exact _ _ _ Ht ltac:(apply inert_kw in Hk; apply inert_cond in Hc; ine) Hwa j1 J1) as (cs & cs' & -> & H1 & H2 & ->).
    destruct (IHb _ _ Hwa0 J2) as (Gb & ->). destruct (IHe _ _ Hwb0 J3) as (ds & rest' & ds' & -> & D1 & D2 & Ge & ->).
    exists cs, (t ++ ((cs' ++ fa0) ++ ds) ++ rest'), ds'. split; [now rewrite <- !app_assoc|]. repeat split; auto.
    eapply gs_if; eauto. apply scope_after; auto. now apply scope_before.
  - intros t k vs vars i ts e body l t' k' Hk Hv Hi He Ht Hb IHb Hk' Ht' f j Hw Hj. split_wc.
    apply tagged_split in Hj as (j1 & J1 & Hj). apply tagged_split in Hj as (j2 & J2 & J3).
    destruct (tag_exact _ _ _ Ht ltac:(apply inert_kw in Hk; apply inert_vars in Hv; apply inert_kw in Hi; apply inert_expr in He; ine) Hwa j1 J1) as (cs & cs' & -> & H1 & H2 & ->).
    destruct (IHb _ _ Hwa0 J2) as (Gb & ->). destruct (tag_exact _ _ _ Ht' ltac:(apply inert_kw in Hk'; ine) Hwb0 j J3) as (ds & ds' & -> & D1 & D2 & ->).
    exists cs, (t ++ ((cs' ++ fa0) ++ ds) ++ t'), ds'. split; [now rewrite <- !app_assoc|]. repeat split; auto.
    eapply gs_for; eauto. apply scope_after; auto. now apply scope_before.
  - intros t k ts e a n body l t' k' Hk He Ha Ht Hb IHb Hk' Ht' f j Hw Hj. split_wc.
    apply tagged_split in Hj as (j1 & J1 & Hj). apply tagged_split in Hj as (j2 & J2 & J3).
    destruct (tag_exact _ _ _ Ht ltac:(apply inert_kw in Hk; apply inert_kw in Ha; apply inert_expr in He; ine) Hwa j1 J1) as (cs & cs' & -> & H1 & H2 & ->).
    destruct (IHb _ _ Hwa0 J2) as (Gb & ->). destruct (tag_exact _ _ _ Ht' ltac:(apply inert_kw in Hk'; ine) Hwb0 j J3) as (ds & ds' & -> & D1 & D2 & ->).
    exists cs, (t ++ ((cs' ++ fa0) ++ ds) ++ t'), ds'. split; [now rewrite <- !app_assoc|]. repeat split; auto.
    eapply gs_with; eauto. apply scope_after; auto. now apply scope_before.
  - intros f j Hw Hj. apply wc_nil_inv in Hw. rewrite (comments_tagged _ Hw) in Hj. split; [|congruence]. rewrite <- (app_nil_r f). apply scope_before; [exact Hw|constructor].
  - intros b r e ts l Hg IH f j Hw Hj. exfalso. clear - Hw. remember ((TBeginComment, b) :: (TRaw, r) :: (TEndComment, e) :: ts) as n eqn:En. induction Hw; try discriminate; auto.
    injection En as -> _. now apply H.
  - intros ts s ts' l Hs IHs Hl IHl f j Hw Hj. split_wc. apply tagged_split in Hj as (j1 & J1 & J2).
    destruct (IHs _ _ Hwa J1) as (cs & ts0 & cs' & -> & H1 & H2 & G & ->). destruct (IHl _ _ Hwb J2) as (G' & ->). split; [|reflexivity].
    rewrite <- !app_assoc. apply scope_before; auto. constructor; auto. now apply scope_before.
  - intros t k Hk Ht f j Hw Hj. destruct (tag_exact _ _ _ Ht ltac:(apply inert_kw in Hk; ine) Hw j Hj) as (cs & cs' & -> & H1 & H2 & ->).
    exists cs, t, cs'. repeat split; auto. econstructor; eauto.
  - intros t k body l t' k' Hk Ht Hb IHb Hk' Ht' f j Hw Hj. split_wc.
    apply tagged_split in Hj as (j1 & J1 & Hj). apply tagged_split in Hj as (j2 & J2 & J3).
    destruct (tag_exact _ _ _ Ht ltac:(apply inert_kw in Hk; ine) Hwa j1 J1) as (cs & cs' & -> & H1 & H2 & ->).
    destruct (IHb _ _ Hwa0 J2) as (Gb & ->). destruct (tag_exact _ _ _ Ht' ltac:(apply inert_kw in Hk'; ine) Hwb0 j J3) as (ds & ds' & -> & D1 & D2 & ->).
    exists cs, (t ++ ((cs' ++ fa0) ++ ds) ++ t'), ds'. split; [now rewrite <- !app_assoc|]. repeat split; auto.
    eapply gel_else; eauto. apply scope_after; auto. now apply scope_before.
  - intros t k i ts n c body thn rest els Hk Hi Hc Ht Hb IHb He IHe f j Hw Hj. split_wc.
    apply tagged_split in Hj as (j1 & J1 & Hj). apply tagged_split in Hj as (j2 & J2 & J3).
    destruct (tag_exact _ _ _ Ht ltac:(apply inert_kw in Hk; apply inert_kw in Hi; apply inert_cond in Hc; ine) Hwa j1 J1) as (cs & cs' & -> & H1 & H2 & ->).
    destruct (IHb _ _ Hwa0 J2) as (Gb & ->). destruct (IHe _ _ Hwb0 J3) as (ds & rest' & ds' & -> & D1 & D2 & Ge & ->).
    exists cs, (t ++ ((cs' ++ fa0) ++ ds) ++ rest'), ds'. split; [now rewrite <- !app_assoc|]. repeat split; auto.
    eapply gel_elseif; eauto. apply scope_after; auto. now apply scope_before.
Qed.
End Layout.

Section LayoutMain.
Context `{X : Ext}.
(** The statements of a text are those of its significant tokens. *)
Lemma derives_alike sx1 source1 sx2 source2 l1 : user_syntax sx1 -> trims_ok sx1 source1 -> valid_utf8 source1 ->
  alike sx1 source1 sx2 source2 -> derives sx1 source1 l1 ->
  exists l2, derives sx2 source2 l2 /\ bare source1 l1 = bare source2 l2.
Proof.
  intros Hu Hc Hv (sg & (ts1 & ts1' & T1 & W1 & E1) & (ts2 & ts2' & T2 & W2 & E2)) (ts & T & G).
  rewrite (tiling_unique sx1 source1 ts ts1 Hu Hc Hv T T1) in G. destruct (proj1 (proj2 (g_without source1)) _ _ G) as (x & Wx & Gx).
  rewrite (wc_fun _ _ Wx _ W1) in Gx. destruct (proj1 (proj2 (transfer source1 source2)) _ _ Gx ts2') as (l2 & G2 & Eb); [unfold same; congruence|].
  exists l2. split; [|exact Eb]. exists ts2. split; [exact T2|].
  destruct (tiling_tagged _ _ _ _ _ _ T2) as (j & Hj). cbn in Hj.
  destruct (proj1 (proj2 (put_back source2)) _ _ G2 _ j W2 Hj) as (H & _). exact H.
Qed.
End LayoutMain.
