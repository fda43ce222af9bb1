(** The grammar on words (tokens without positions), and an automaton for it. *)
From Verif Require Import Base Utf8 Ext Errors Syntax SearchSpec Value Ast Lexer LexSpec GrammarSpec LayoutSpec BlameSpec ParseComplete LayoutProof.

Notation wd := (token * str)%type.
Definition Bx : wd := (TBeginExpr, []). Definition Ex : wd := (TEndExpr, []).
Definition Bb : wd := (TBeginBlock, []). Definition Eb : wd := (TEndBlock, []).
Definition Bc : wd := (TBeginComment, []). Definition Ec : wd := (TEndComment, []).
Definition key (s : string) : wd := (TKeyword, s2b s).

(** The kinds of blocks. *)
Inductive eff := bIf | bElse | bElseIf | bEndIf | bFor | bEndFor | bWith | bEndWith | bInclude.

Section Words.
Context `{X : Ext}.

Inductive w_members : list wd -> Prop :=
| wm_nil : w_members []
| wm_more o a ms : (fst o = TDot \/ fst o = TQuestionDot) ->
    (fst a = TIdent \/ fst a = TIndex /\ exists v, index_lit (snd a) v) -> w_members ms -> w_members (o :: a :: ms).
Inductive w_base : list wd -> Prop :=
| wb_var s ms : w_members ms -> w_base ((TIdent, s) :: ms)
| wb_true : w_base [key "true"]
| wb_false : w_base [key "false"]
| wb_num s v : number_lit s false v -> w_base [(TNumber, s)]
| wb_plus s1 s v : number_lit s false v -> w_base [(TPlus, s1); (TNumber, s)]
| wb_minus s1 s v : number_lit s true v -> w_base [(TMinus, s1); (TNumber, s)]
| wb_str s o : string_lit s o -> w_base [(TString, s)].
Inductive w_args : list wd -> Prop :=
| wr_one ws : w_base ws -> w_args ws
| wr_more ws c ws' : w_base ws -> w_args ws' -> w_args (ws ++ (TComma, c) :: ws').
Inductive w_expr : list wd -> Prop :=
| we_base ws : w_base ws -> w_expr ws
| we_call ws p n : w_expr ws -> w_expr (ws ++ [(TPipe, p); (TIdent, n)])
| we_args ws p n c ws' : w_expr ws -> w_args ws' -> w_expr (ws ++ (TPipe, p) :: (TIdent, n) :: (TColon, c) :: ws').
Inductive w_cond : list wd -> Prop :=
| wc_if ws : w_expr ws -> w_cond ws
| wc_not ws : w_expr ws -> w_cond (key "not" :: ws).
Inductive w_inner : list wd -> eff -> Prop :=
| wi_if ws : w_cond ws -> w_inner (key "if" :: ws) bIf
| wi_elseif ws : w_cond ws -> w_inner (key "else" :: key "if" :: ws) bElseIf
| wi_else : w_inner [key "else"] bElse
| wi_endif : w_inner [key "endif"] bEndIf
| wi_for v ws : w_expr ws -> w_inner (key "for" :: (TIdent, v) :: key "in" :: ws) bFor
| wi_for2 k c v ws : w_expr ws -> w_inner (key "for" :: (TIdent, k) :: (TComma, c) :: (TIdent, v) :: key "in" :: ws) bFor
| wi_endfor : w_inner [key "endfor"] bEndFor
| wi_with ws n : w_expr ws -> w_inner (key "with" :: ws ++ [key "as"; (TIdent, n)]) bWith
| wi_endwith : w_inner [key "endwith"] bEndWith
| wi_include s o : string_lit s o -> w_inner [key "include"; (TString, s)] bInclude
| wi_include_with s o ws : string_lit s o -> w_expr ws -> w_inner (key "include" :: (TString, s) :: key "with" :: ws) bInclude.
Definition w_tag (ws : list wd) (b : eff) : Prop := exists inner, ws = Bb :: inner ++ [Eb] /\ w_inner inner b.
Inductive w_stmt : list wd -> Prop :=
| ws_raw s : w_stmt [(TRaw, s)]
| ws_inline ws : w_expr ws -> w_stmt (Bx :: ws ++ [Ex])
| ws_include t : w_tag t bInclude -> w_stmt t
| ws_if t body rest : w_tag t bIf -> w_scope body -> w_else rest -> w_stmt (t ++ body ++ rest)
| ws_for t body t' : w_tag t bFor -> w_scope body -> w_tag t' bEndFor -> w_stmt (t ++ body ++ t')
| ws_with t body t' : w_tag t bWith -> w_scope body -> w_tag t' bEndWith -> w_stmt (t ++ body ++ t')
with w_scope : list wd -> Prop :=
| wsc_nil : w_scope []
| wsc_comment r ws : w_scope ws -> w_scope (Bc :: (TRaw, r) :: Ec :: ws)
| wsc_stmt ws ws' : w_stmt ws -> w_scope ws' -> w_scope (ws ++ ws')
with w_else : list wd -> Prop :=
| wel_endif t : w_tag t bEndIf -> w_else t
| wel_else t body t' : w_tag t bElse -> w_scope body -> w_tag t' bEndIf -> w_else (t ++ body ++ t')
| wel_elseif t body rest : w_tag t bElseIf -> w_scope body -> w_else rest -> w_else (t ++ body ++ rest).
Scheme w_stmt_mut := Minimality for w_stmt Sort Prop
  with w_scope_mut := Minimality for w_scope Sort Prop
  with w_else_mut := Minimality for w_else Sort Prop.
Combined Scheme w_mut from w_stmt_mut, w_scope_mut, w_else_mut.

(** ** From the grammar to words *)
Section To.
Variable source : str.
Notation W := (words source).
Lemma words_app a b : W (a ++ b) = W a ++ W b.
Proof. apply map_app. Qed.
Lemma words_cons t sp a : W ((t, sp) :: a) = (t, if is_delimiter t then [] else txt source sp) :: W a.
Proof. reflexivity. Qed.
Ltac wcb := repeat (rewrite words_app || rewrite words_cons); cbn [is_delimiter app]; change (words source []) with (@nil wd).
Lemma to_members ts ms : g_members source ts ms -> w_members (W ts).
Proof.
  induction 1 as [|sp ts a ts' ms Ha Hm IH|sp ts a ts' ms Ha Hm IH]; [constructor| |]; destruct Ha as [sp' v Hv|sp']; cbn [app]; rewrite !words_cons; constructor; auto; cbn; eauto.
Qed.
Lemma to_base ts b : g_base source ts b -> w_base (W ts).
Proof.
  destruct 1 as [sp ts ms Hm|sp E|sp E|sp v E|sp0 sp v E|sp0 sp v E|sp s E]; wcb; rewrite ?E.
  - constructor. eapply to_members; eauto.
  - apply wb_true.
  - apply wb_false.
  - eapply wb_num; eauto.
  - eapply wb_plus; eauto.
  - eapply wb_minus; eauto.
  - eapply wb_str; eauto.
Qed.
Lemma to_args ts bs : g_args source ts bs -> w_args (W ts).
Proof.
  induction 1 as [ts b Hb|ts b c ts' bs Hb Ha IH]; [constructor; eapply to_base; eauto|]. wcb. apply wr_more; auto. eapply to_base; eauto.
Qed.
Lemma to_expr ts e : g_expr source ts e -> w_expr (W ts).
Proof.
  induction 1 as [ts b Hb|ts e p n He IH|ts e p n c ts' bs He IH Ha]; wcb.
  - constructor. eapply to_base; eauto.
  - now apply we_call.
  - apply we_args; auto. eapply to_args; eauto.
Qed.
Lemma to_kw s k : kw source s k -> W k = [key s].
Proof. intros (sp & -> & E). wcb. now rewrite E. Qed.
Lemma to_cond ts n c : g_cond source ts n c -> w_cond (W ts).
Proof.
  destruct 1 as [ts e He|k ts e Hk He]; [constructor; eapply to_expr; eauto|]. rewrite words_app, (to_kw _ _ Hk). apply wc_not. eapply to_expr; eauto.
Qed.
Lemma to_tag inner t b : tag_block inner t -> w_inner (W inner) b -> w_tag (W t) b.
Proof. intros (s & e & ->) H. exists (W inner). split; [|exact H]. now wcb. Qed.
Lemma to_words : (forall ts s, g_stmt source ts s -> w_stmt (W ts)) /\ (forall ts l, g_scope source ts l -> w_scope (W ts)) /\
  (forall ts e, g_else source ts e -> w_else (W ts)).
Proof.
  apply g_mut.
  - intros sp. wcb. constructor.
  - intros b ts e en He. wcb. constructor. eapply to_expr; eauto.
  - intros t k sp s Hk Hl Ht. apply ws_include, (to_tag _ _ _ Ht). wcb. rewrite (to_kw _ _ Hk). econstructor; eauto.
  - intros t k sp s w ts e Hk Hl Hw He Ht. apply ws_include, (to_tag _ _ _ Ht). wcb. rewrite (to_kw _ _ Hk), (to_kw _ _ Hw).
    econstructor; eauto. eapply to_expr; eauto.
  - intros t k ts n c body thn rest els Hk Hc Ht Hb IHb He IHe. rewrite !words_app. apply ws_if; auto. apply (to_tag _ _ _ Ht).
    rewrite words_app, (to_kw _ _ Hk). constructor. eapply to_cond; eauto.
  - intros t k vs vars i ts e body l t' k' Hk Hv Hi He Ht Hb IHb Hk' Ht'. rewrite !words_app. apply ws_for; auto.
    + apply (to_tag _ _ _ Ht). rewrite !words_app, (to_kw _ _ Hk), (to_kw _ _ Hi). destruct Hv as [sp|k0 c v]; wcb; constructor; eapply to_expr; eauto.
    + apply (to_tag _ _ _ Ht'). rewrite (to_kw _ _ Hk'). constructor.
  - intros t k ts e a n body l t' k' Hk He Ha Ht Hb IHb Hk' Ht'. rewrite !words_app. apply ws_with; auto.
    + apply (to_tag _ _ _ Ht). rewrite !words_app, (to_kw _ _ Hk), (to_kw _ _ Ha). wcb. constructor; eapply to_expr; eauto.
    + apply (to_tag _ _ _ Ht'). rewrite (to_kw _ _ Hk'). constructor.
  - constructor.
  - intros b r e ts l _ IH. wcb. now constructor.
  - intros ts s ts0 l _ IHs _ IHl. rewrite words_app. now apply wsc_stmt.
  - intros t k Hk Ht. constructor. apply (to_tag _ _ _ Ht). rewrite (to_kw _ _ Hk). constructor.
  - intros t k body l t' k' Hk Ht Hb IHb Hk' Ht'. rewrite !words_app. apply wel_else; auto.
    + apply (to_tag _ _ _ Ht). rewrite (to_kw _ _ Hk). constructor.
    + apply (to_tag _ _ _ Ht'). rewrite (to_kw _ _ Hk'). constructor.
  - intros t k i ts n c body thn rest els Hk Hi Hc Ht Hb IHb He IHe. rewrite !words_app. apply wel_elseif; auto. apply (to_tag _ _ _ Ht).
    rewrite !words_app, (to_kw _ _ Hk), (to_kw _ _ Hi). constructor. eapply to_cond; eauto.
Qed.

(** ** From words to the grammar *)
Lemma w_nil ts : W ts = [] -> ts = [].
Proof. now destruct ts. Qed.
Lemma w_cons ts t s r : W ts = (t, s) :: r -> exists sp ts', ts = (t, sp) :: ts' /\ (is_delimiter t = false -> txt source sp = s) /\ W ts' = r.
Proof.
  destruct ts as [|[t' sp] ts]; [discriminate|]. rewrite words_cons. intros E. injection E as -> <- <-. exists sp, ts. split; auto. split; auto. now intros ->.
Qed.
Lemma w_app ts a b : W ts = a ++ b -> exists ta tb, ts = ta ++ tb /\ W ta = a /\ W tb = b.
Proof. intros E. apply map_eq_app in E as (ta & tb & -> & <- & <-). eauto. Qed.
Ltac unw := repeat match goal with
  | H : words source ?ts = [] |- _ => apply w_nil in H; subst ts
  | H : words source ?ts = _ :: _ |- _ => let sp := fresh "sp" in let ts' := fresh "ts" in let E := fresh "Et" in
      apply w_cons in H as (sp & ts' & -> & E & H); cbn [is_delimiter] in E; try specialize (E eq_refl)
  | H : words source ?ts = _ ++ _ |- _ => let a := fresh "ta" in let b := fresh "tb" in let E := fresh "Hw" in
      apply w_app in H as (a & b & -> & E & H)
  end.
Lemma of_members ws : w_members ws -> forall ts, W ts = ws -> exists ms, g_members source ts ms.
Proof.
  induction 1 as [|[o os] [a as_] ms Ho Ha Hm IH]; intros ts E; unw; [eexists; constructor|]. cbn [fst snd] in *. destruct (IH _ E) as (ms' & G).
  assert (Ga : exists ac, g_access source [(a, sp0)] ac).
  { destruct Ha as [->|(-> & v & Hv)]; eexists; [apply ga_key|]. apply ga_index with (v := v). cbn [is_delimiter] in Et0. now rewrite (Et0 eq_refl). }
  destruct Ga as (ac & Ga). destruct Ho as [-> | ->]; eexists; [exact (gm_dot _ _ _ _ _ _ Ga G)|exact (gm_question _ _ _ _ _ _ Ga G)].
Qed.
Lemma of_base ws : w_base ws -> forall ts, W ts = ws -> exists b, g_base source ts b.
Proof.
  destruct 1 as [s ms Hm| | |s v E|s1 s v E|s1 s v E|s o E]; intros ts H; unfold key in *; unw.
  - destruct (of_members _ Hm _ H) as (m & G). eexists. exact (gb_var _ _ _ _ G).
  - eexists. now apply gb_true.
  - eexists. now apply gb_false.
  - eexists. apply gb_num. rewrite Et. exact E.
  - eexists. apply gb_plus. rewrite Et0. exact E.
  - eexists. apply gb_minus. rewrite Et0. exact E.
  - eexists. apply gb_str. rewrite Et. exact E.
Qed.
Lemma of_args ws : w_args ws -> forall ts, W ts = ws -> exists b, g_args source ts b.
Proof.
  induction 1 as [ws Hb|ws c ws' Hb Ha IH]; intros ts H; unw.
  - destruct (of_base _ Hb _ H) as (b & G). eexists. exact (gr_one _ _ _ G).
  - destruct (of_base _ Hb _ Hw) as (b & G). destruct (IH _ H) as (bs & G'). eexists. eapply gr_more; eauto.
Qed.
Lemma of_expr ws : w_expr ws -> forall ts, W ts = ws -> exists e, g_expr source ts e.
Proof.
  induction 1 as [ws Hb|ws p n He IH|ws p n c ws' He IH Ha]; intros ts H; unw.
  - destruct (of_base _ Hb _ H) as (b & G). eexists. exact (ge_base _ _ _ G).
  - destruct (IH _ Hw) as (e & G). eexists. eapply ge_call; eauto.
  - destruct (IH _ Hw) as (e & G). destruct (of_args _ Ha _ H) as (bs & G'). eexists. eapply ge_call_args; eauto.
Qed.
Lemma kw_one s sp : txt source sp = s2b s -> kw source s [(TKeyword, sp)].
Proof. intros E. exists sp. auto. Qed.
Lemma of_cond ws : w_cond ws -> forall ts, W ts = ws -> exists n e, g_cond source ts n e.
Proof.
  destruct 1 as [ws He|ws He]; intros ts H; unfold key in *; unw; destruct (of_expr _ He _ H) as (e & G); eexists _, e; [exact (gc_if _ _ _ G)|].
  exact (gc_not _ [(TKeyword, sp)] _ _ (kw_one _ _ Et) G).
Qed.
Lemma of_tag t b : w_tag t b -> forall ts, W ts = t -> exists inner, tag_block inner ts /\ w_inner (W inner) b.
Proof.
  intros (inner & -> & Hi) ts H. unfold Bb, Eb in H. unw. exists ta. split; [|now rewrite Hw]. eexists _, _. reflexivity.
Qed.
Ltac invi H := match type of H with w_inner (words source ?i) ?b => inversion H; clear H;
  match goal with E : _ = words source i |- _ => symmetry in E; rename E into Ei end; unfold key in *; cbn [app] in *; unw end.
Ltac kwx := eexists; split; [reflexivity|eassumption].
Lemma of_words : (forall ws, w_stmt ws -> forall ts, W ts = ws -> exists s, g_stmt source ts s) /\
  (forall ws, w_scope ws -> forall ts, W ts = ws -> exists l, g_scope source ts l) /\
  (forall ws, w_else ws -> forall ts, W ts = ws -> exists e, g_else source ts e).
Proof.
  apply w_mut.
  - intros s ts H. unw. eexists. constructor.
  - intros ws He ts H. unfold Bx, Ex in H. unw. destruct (of_expr _ He _ Hw) as (e & G). eexists. constructor; eauto.
  - intros t Ht ts H. destruct (of_tag _ _ Ht _ H) as (inner & Gt & Hi). invi Hi.
    + eexists. eapply (gs_include _ _ [(TKeyword, sp)]); [kwx|rewrite Et0; eassumption|exact Gt].
    + match goal with K : w_expr ?w |- _ => destruct (of_expr _ K _ Ei) as (e & G) end.
      eexists. eapply (gs_include_with _ _ [(TKeyword, sp)] _ _ [(TKeyword, sp1)]); [kwx|rewrite Et0; eassumption|kwx|exact G|exact Gt].
  - intros t body rest Ht Hb IHb He IHe ts H. unw. destruct (of_tag _ _ Ht _ Hw) as (inner & Gt & Hi). destruct (IHb _ Hw0) as (l & Gb). destruct (IHe _ H) as (e & Ge).
    invi Hi. match goal with K : w_cond ?w |- _ => destruct (of_cond _ K _ Ei) as (n & c & G) end. eexists. eapply (gs_if _ _ [(TKeyword, sp)]); eauto. kwx.
  - intros t body t' Ht Hb IHb Ht' ts H. unw. destruct (of_tag _ _ Ht _ Hw) as (inner & Gt & Hi). destruct (IHb _ Hw0) as (l & Gb).
    destruct (of_tag _ _ Ht' _ H) as (inner' & Gt' & Hi'). invi Hi'. invi Hi; match goal with K : w_expr ?w |- _ => destruct (of_expr _ K _ Ei) as (e & G) end.
    + eexists. eapply (gs_for _ _ [(TKeyword, sp0)] [(TIdent, sp1)] _ [(TKeyword, sp2)] _ _ _ _ _ [(TKeyword, sp)]); eauto; [kwx|constructor|kwx|kwx].
    + eexists. eapply (gs_for _ _ [(TKeyword, sp0)] [(TIdent, sp1); (TComma, sp2); (TIdent, sp3)] _ [(TKeyword, sp4)] _ _ _ _ _ [(TKeyword, sp)]); eauto; [kwx|constructor|kwx|kwx].
  - intros t body t' Ht Hb IHb Ht' ts H. unw. destruct (of_tag _ _ Ht _ Hw) as (inner & Gt & Hi). destruct (IHb _ Hw0) as (l & Gb).
    destruct (of_tag _ _ Ht' _ H) as (inner' & Gt' & Hi'). invi Hi'. invi Hi. match goal with K : w_expr ?w |- _ => destruct (of_expr _ K _ Hw1) as (e & G) end.
    eexists. eapply (gs_with _ ta [(TKeyword, sp0)] ta1 e [(TKeyword, sp1)] sp2 ta0 l tb0 [(TKeyword, sp)]); [kwx|exact G|kwx|exact Gt|exact Gb|kwx|exact Gt'].
  - intros ts H. unw. eexists. constructor.
  - intros r ws Hs IH ts H. unfold Bc, Ec in *. unw. destruct (IH _ H) as (l & G). eexists. constructor. exact G.
  - intros ws ws' Hs IHs Hl IHl ts H. unw. destruct (IHs _ Hw) as (s & G). destruct (IHl _ H) as (l & G'). eexists. constructor; eauto.
  - intros t Ht ts H. destruct (of_tag _ _ Ht _ H) as (inner & Gt & Hi). invi Hi. eexists. eapply (gel_endif _ _ [(TKeyword, sp)]); [kwx|exact Gt].
  - intros t body t' Ht Hb IHb Ht' ts H. unw. destruct (of_tag _ _ Ht _ Hw) as (inner & Gt & Hi). destruct (IHb _ Hw0) as (l & Gb).
    destruct (of_tag _ _ Ht' _ H) as (inner' & Gt' & Hi'). invi Hi'. invi Hi. eexists. eapply (gel_else _ _ [(TKeyword, sp0)] _ _ _ [(TKeyword, sp)]); eauto; kwx.
  - intros t body rest Ht Hb IHb He IHe ts H. unw. destruct (of_tag _ _ Ht _ Hw) as (inner & Gt & Hi). destruct (IHb _ Hw0) as (l & Gb). destruct (IHe _ H) as (e & Ge).
    invi Hi. match goal with K : w_cond ?w |- _ => destruct (of_cond _ K _ Ei) as (n & c & G) end. eexists. eapply (gel_elseif _ _ [(TKeyword, sp)] [(TKeyword, sp0)]); eauto; kwx.
Qed.
End To.
End Words.

Section Sentence.
Context `{X : Ext}.
Definition clean (w : wd) : Prop := is_delimiter (fst w) = true -> snd w = [].
Lemma clean_sense source t : clean (sense source t).
Proof. unfold clean, sense. cbn. now intros ->. Qed.
Lemma clean_words source ts : Forall clean (words source ts).
Proof. apply Forall_forall. intros w H. apply in_map_iff in H as (t & <- & _). apply clean_sense. Qed.

Lemma realize ws : Forall clean ws -> forall pre, exists ts, words (pre ++ flat_map snd ws) ts = ws.
Proof.
  induction 1 as [|[t s] ws Hc Hf IH]; intros pre; [exists []; reflexivity|]. destruct (IH (pre ++ s)) as (ts & E).
  exists ((t, mkspan (length pre) (length pre + length s)) :: ts). cbn [flat_map snd]. rewrite words_cons. rewrite <- app_assoc in E. rewrite E. f_equal. f_equal.
  unfold clean in Hc. cbn in Hc. destruct (is_delimiter t); [now rewrite Hc|]. unfold txt, sub. cbn [sp_m sp_n].
  rewrite skipn_app, skipn_all, Nat.sub_diag. cbn [app skipn]. replace (length pre + length s - length pre) with (length s) by lia.
  now rewrite firstn_app, firstn_all, Nat.sub_diag, firstn_O, app_nil_r.
Qed.

Ltac cln := repeat first [apply Forall_app; split | apply Forall_nil | assumption | apply Forall_cons; [intros ?Hd; first [reflexivity|discriminate Hd]|]].
Lemma cl_members ws : w_members ws -> Forall clean ws.
Proof.
  induction 1 as [|[o os] [a as_] ms Ho Ha Hm IH]; cbn [fst snd] in *; [constructor|]. constructor; [|constructor; [|exact IH]]; intros Hd; cbn in Hd.
  - destruct Ho as [-> | ->]; discriminate.
  - destruct Ha as [->|(-> & _)]; discriminate.
Qed.
Lemma cl_base ws : w_base ws -> Forall clean ws.
Proof. destruct 1; cln. now apply cl_members. Qed.
Lemma cl_args ws : w_args ws -> Forall clean ws.
Proof. induction 1 as [ws H|ws c ws' H Ha IH]; [now apply cl_base|]. pose proof (cl_base _ H). cln. Qed.
Lemma cl_expr ws : w_expr ws -> Forall clean ws.
Proof. induction 1 as [ws H|ws p n H IH|ws p n c ws' H IH Ha]; [now apply cl_base| |pose proof (cl_args _ Ha)]; cln. Qed.
Lemma cl_cond ws : w_cond ws -> Forall clean ws.
Proof. destruct 1 as [ws H|ws H]; pose proof (cl_expr _ H); cln. Qed.
Lemma cl_inner ws b : w_inner ws b -> Forall clean ws.
Proof. destruct 1; try match goal with H : w_cond _ |- _ => pose proof (cl_cond _ H) | H : w_expr _ |- _ => pose proof (cl_expr _ H) end; cln. Qed.
Lemma cl_tag ws b : w_tag ws b -> Forall clean ws.
Proof. intros (i & -> & H). pose proof (cl_inner _ _ H). cln. Qed.
Lemma cl_words : (forall ws, w_stmt ws -> Forall clean ws) /\ (forall ws, w_scope ws -> Forall clean ws) /\ (forall ws, w_else ws -> Forall clean ws).
Proof.
  apply w_mut; intros; repeat match goal with H : w_tag _ _ |- _ => apply cl_tag in H end; cln. now apply cl_expr.
Qed.

Theorem sentence_iff ws : sentence ws <-> w_scope ws.
Proof.
  split.
  - intros (source & ts & l & G & <-). exact (proj1 (proj2 (to_words source)) _ _ G).
  - intros H. destruct (realize ws (proj1 (proj2 cl_words) _ H) []) as (ts & E). destruct (proj1 (proj2 (of_words _)) _ H _ E) as (l & G).
    eexists _, ts, l. split; [exact G|exact E].
Qed.
End Sentence.
