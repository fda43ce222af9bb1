(** A deterministic automaton (with a stack of open blocks) that reads the words of a
    template one by one; it accepts exactly the sentences, and every word it reads can
    be followed up to a sentence. *)
From Verif Require Import Base Utf8 Ext Errors Syntax Value Ast Lexer LexSpec GrammarSpec LayoutSpec BlameSpec Words.

(** What comes after an expression: the end of the tag, or [as]. *)
Inductive ctl := CInline | CBlock (b : eff) | CAs.
Inductive q :=
| QText | QBlock | QCond (b : eff)
| QBase (k : ctl) (arg : bool) | QNum (k : ctl) (arg neg : bool) | QVar (k : ctl) (arg : bool) | QAccess (k : ctl) (arg : bool)
| QAfter (k : ctl) (arg : bool) | QPipe (k : ctl) | QFilter (k : ctl)
| QElse | QEnd (b : eff) | QVars1 | QVars2 | QVars3 | QVars4 | QAsName | QInc | QInc2 | QC1 | QC2.
Inductive frame := FIf (has_else : bool) | FFor | FWith.

Definition is_kw (w : wd) (s : string) : bool := match fst w with TKeyword => str_eqb (snd w) (s2b s) | _ => false end.

Definition after_expr (k : ctl) (w : wd) : option (q * option eff) :=
  match k with
  | CInline => match fst w with TEndExpr => Some (QText, None) | _ => None end
  | CBlock b => match fst w with TEndBlock => Some (QText, Some b) | _ => None end
  | CAs => if is_kw w "as" then Some (QAsName, None) else None
  end.
Definition after_base (k : ctl) (arg : bool) (w : wd) : option (q * option eff) :=
  match fst w with
  | TPipe => Some (QPipe k, None)
  | TComma => if arg then Some (QBase k true, None) else None
  | _ => after_expr k w
  end.
Definition at_base (k : ctl) (arg : bool) (w : wd) : option (q * option eff) :=
  match fst w with
  | TIdent => Some (QVar k arg, None)
  | TNumber | TString => Some (QAfter k arg, None)
  | TPlus => Some (QNum k arg false, None)
  | TMinus => Some (QNum k arg true, None)
  | TKeyword => if str_eqb (snd w) (s2b "true") || str_eqb (snd w) (s2b "false") then Some (QAfter k arg, None) else None
  | _ => None
  end.
Definition at_block (s : str) : option q :=
  if str_eqb s (s2b "if") then Some (QCond bIf)
  else if str_eqb s (s2b "else") then Some QElse
  else if str_eqb s (s2b "endif") then Some (QEnd bEndIf)
  else if str_eqb s (s2b "for") then Some QVars1
  else if str_eqb s (s2b "endfor") then Some (QEnd bEndFor)
  else if str_eqb s (s2b "with") then Some (QBase CAs false)
  else if str_eqb s (s2b "endwith") then Some (QEnd bEndWith)
  else if str_eqb s (s2b "include") then Some QInc
  else None.

Definition nextq (s : q) (w : wd) : option (q * option eff) :=
  match s with
  | QText => match fst w with
             | TRaw => Some (QText, None) | TBeginExpr => Some (QBase CInline false, None)
             | TBeginBlock => Some (QBlock, None) | TBeginComment => Some (QC1, None) | _ => None end
  | QBlock => match fst w with TKeyword => match at_block (snd w) with Some s' => Some (s', None) | None => None end | _ => None end
  | QCond b => if is_kw w "not" then Some (QBase (CBlock b) false, None) else at_base (CBlock b) false w
  | QBase k a => at_base k a w
  | QNum k a _ => match fst w with TNumber => Some (QAfter k a, None) | _ => None end
  | QVar k a => match fst w with TDot | TQuestionDot => Some (QAccess k a, None) | _ => after_base k a w end
  | QAccess k a => match fst w with TIdent | TIndex => Some (QVar k a, None) | _ => None end
  | QAfter k a => after_base k a w
  | QPipe k => match fst w with TIdent => Some (QFilter k, None) | _ => None end
  | QFilter k => match fst w with TPipe => Some (QPipe k, None) | TColon => Some (QBase k true, None) | _ => after_expr k w end
  | QElse => if is_kw w "if" then Some (QCond bElseIf, None) else match fst w with TEndBlock => Some (QText, Some bElse) | _ => None end
  | QEnd b => match fst w with TEndBlock => Some (QText, Some b) | _ => None end
  | QVars1 => match fst w with TIdent => Some (QVars2, None) | _ => None end
  | QVars2 => if is_kw w "in" then Some (QBase (CBlock bFor) false, None) else match fst w with TComma => Some (QVars3, None) | _ => None end
  | QVars3 => match fst w with TIdent => Some (QVars4, None) | _ => None end
  | QVars4 => if is_kw w "in" then Some (QBase (CBlock bFor) false, None) else None
  | QAsName => match fst w with TIdent => Some (QEnd bWith, None) | _ => None end
  | QInc => match fst w with TString => Some (QInc2, None) | _ => None end
  | QInc2 => if is_kw w "with" then Some (QBase (CBlock bInclude) false, None) else match fst w with TEndBlock => Some (QText, Some bInclude) | _ => None end
  | QC1 => match fst w with TRaw => Some (QC2, None) | _ => None end
  | QC2 => match fst w with TEndComment => Some (QText, None) | _ => None end
  end.

(** The effect of a tag on the open blocks. *)
Definition effect (st : list frame) (b : eff) : option (list frame) :=
  match b, st with
  | bIf, _ => Some (FIf false :: st)
  | bElse, FIf false :: st' => Some (FIf true :: st')
  | bElseIf, FIf false :: _ => Some st
  | bEndIf, FIf _ :: st' => Some st'
  | bFor, _ => Some (FFor :: st)
  | bEndFor, FFor :: st' => Some st'
  | bWith, _ => Some (FWith :: st)
  | bEndWith, FWith :: st' => Some st'
  | bInclude, _ => Some st
  | _, _ => None
  end.

Section Automaton.
Context `{X : Ext}.

Definition signed (s : q) : bool := match s with QNum _ _ neg => neg | _ => false end.
(** The text of a literal denotes something. *)
Definition fits (s : q) (w : wd) : Prop :=
  match fst w with
  | TNumber => exists v, number_lit (snd w) (signed s) v
  | TString => exists o, string_lit (snd w) o
  | TIndex => exists v, index_lit (snd w) v
  | _ => True
  end.
Definition step (s : q) (w : wd) (s' : q) (o : option eff) : Prop := nextq s w = Some (s', o) /\ fits s w /\ clean w.

(** Inside of a tag: the tag is not closed. *)
Fixpoint srun (s : q) (ws : list wd) (s' : q) : Prop :=
  match ws with [] => s' = s | w :: ws' => exists s1, step s w s1 None /\ srun s1 ws' s' end.
(** Regardless of blocks. *)
Fixpoint trun (s : q) (ws : list wd) (s' : q) : Prop :=
  match ws with [] => s' = s | w :: ws' => exists s1 o, step s w s1 o /\ trun s1 ws' s' end.
(** With open blocks. *)
Definition fstep (c : list frame * q) (w : wd) (c' : list frame * q) : Prop :=
  exists o, step (snd c) w (snd c') o /\ match o with None => fst c' = fst c | Some b => effect (fst c) b = Some (fst c') end.
Fixpoint frun (c : list frame * q) (ws : list wd) (c' : list frame * q) : Prop :=
  match ws with [] => c' = c | w :: ws' => exists c1, fstep c w c1 /\ frun c1 ws' c' end.

Lemma step_fun s w s1 o1 s2 o2 : step s w s1 o1 -> step s w s2 o2 -> s1 = s2 /\ o1 = o2.
Proof. intros (H1 & _) (H2 & _). rewrite H1 in H2. injection H2 as -> ->. auto. Qed.
Lemma fstep_fun c w c1 c2 : fstep c w c1 -> fstep c w c2 -> c1 = c2.
Proof.
  intros (o1 & S1 & E1) (o2 & S2 & E2). destruct (step_fun _ _ _ _ _ _ S1 S2) as [Eq <-]. destruct c1, c2. cbn in *. subst. f_equal.
  destruct o1; congruence.
Qed.
Lemma srun_app s a b s' : srun s (a ++ b) s' <-> exists s1, srun s a s1 /\ srun s1 b s'.
Proof.
  revert s. induction a as [|w a IH]; intros s; cbn [app srun]; [split; [eauto|now intros (s1 & -> & H)]|].
  split.
  - intros (s1 & H1 & H2). apply IH in H2 as (s2 & H2 & H3). eauto 6.
  - intros (s2 & (s1 & H1 & H2) & H3). exists s1. split; auto. apply IH. eauto.
Qed.
Lemma trun_app s a b s' : trun s (a ++ b) s' <-> exists s1, trun s a s1 /\ trun s1 b s'.
Proof.
  revert s. induction a as [|w a IH]; intros s; cbn [app trun]; [split; [eauto|now intros (s1 & -> & H)]|].
  split.
  - intros (s1 & o & H1 & H2). apply IH in H2 as (s2 & H2 & H3). eauto 8.
  - intros (s2 & (s1 & o & H1 & H2) & H3). exists s1, o. split; auto. apply IH. eauto.
Qed.
Lemma frun_app c a b c' : frun c (a ++ b) c' <-> exists c1, frun c a c1 /\ frun c1 b c'.
Proof.
  revert c. induction a as [|w a IH]; intros c; cbn [app frun]; [split; [eauto|now intros (s1 & -> & H)]|].
  split.
  - intros (s1 & H1 & H2). apply IH in H2 as (s2 & H2 & H3). eauto 6.
  - intros (s2 & (s1 & H1 & H2) & H3). exists s1. split; auto. apply IH. eauto.
Qed.
Lemma srun_one s w s' : srun s [w] s' <-> step s w s' None.
Proof. cbn. split; [intros (s1 & H & ->); exact H|eauto]. Qed.
Lemma srun_frun st s ws s' : srun s ws s' -> frun (st, s) ws (st, s').
Proof.
  revert s. induction ws as [|w ws IH]; intros s; cbn [srun frun]; [now intros ->|]. intros (s1 & H1 & H2). exists (st, s1). split; auto. exists None. auto.
Qed.
Lemma srun_trun s ws s' : srun s ws s' -> trun s ws s'.
Proof.
  revert s. induction ws as [|w ws IH]; intros s; cbn [srun trun]; auto. intros (s1 & H1 & H2). eauto 6.
Qed.
Lemma frun_trun c ws c' : frun c ws c' -> trun (snd c) ws (snd c').
Proof.
  revert c. induction ws as [|w ws IH]; intros c; cbn [frun trun]; [now intros ->|]. intros (c1 & (o & H1 & _) & H2). exists (snd c1), o. split; auto.
Qed.
Lemma trun_fun s ws s1 s2 : trun s ws s1 -> trun s ws s2 -> s1 = s2.
Proof.
  revert s. induction ws as [|w ws IH]; intros s; cbn [trun]; [congruence|]. intros (a & o & H1 & H2) (b & o' & H3 & H4).
  destruct (step_fun _ _ _ _ _ _ H1 H3) as [-> _]. eauto.
Qed.
Lemma frun_fun c ws c1 c2 : frun c ws c1 -> frun c ws c2 -> c1 = c2.
Proof.
  revert c. induction ws as [|w ws IH]; intros c; cbn [frun]; [congruence|]. intros (a & H1 & H2) (b & H3 & H4).
  rewrite (fstep_fun _ _ _ _ H1 H3) in H2. eauto.
Qed.

(** ** Sentences are accepted *)
(** The state after an expression. *)
Inductive ended (k : ctl) : q -> Prop :=
| en_var a : ended k (QVar k a)
| en_after a : ended k (QAfter k a)
| en_filter : ended k (QFilter k).
Inductive ended_base (k : ctl) (a : bool) : q -> Prop :=
| eb_var : ended_base k a (QVar k a)
| eb_after : ended_base k a (QAfter k a).
Lemma ended_base_ended k a s : ended_base k a s -> ended k s.
Proof. destruct 1; constructor. Qed.

Ltac st := split; [reflexivity|split; [first [exact I|eexists; eassumption]|intros ?Hd; first [reflexivity|discriminate Hd]]].

Lemma a_members k a ms : w_members ms -> srun (QVar k a) ms (QVar k a).
Proof.
  induction 1 as [|[o os] [x xs] ms Ho Hx Hm IH]; [reflexivity|]. cbn [fst snd] in *. exists (QAccess k a). split.
  - destruct Ho as [-> | ->]; st.
  - exists (QVar k a). split; [|exact IH]. destruct Hx as [->|(-> & v & Hv)]; st.
Qed.
Lemma a_base k a ws : w_base ws -> exists s, srun (QBase k a) ws s /\ ended_base k a s.
Proof.
  destruct 1.
  - exists (QVar k a). split; [|constructor]. exists (QVar k a). split; [st|]. now apply a_members.
  - exists (QAfter k a). split; [|constructor]. apply srun_one. st.
  - exists (QAfter k a). split; [|constructor]. apply srun_one. st.
  - exists (QAfter k a). split; [|constructor]. apply srun_one. st.
  - exists (QAfter k a). split; [|constructor]. exists (QNum k a false). split; [st|]. apply srun_one. st.
  - exists (QAfter k a). split; [|constructor]. exists (QNum k a true). split; [st|]. apply srun_one. st.
  - exists (QAfter k a). split; [|constructor]. apply srun_one. st.
Qed.
Lemma a_args k ws : w_args ws -> exists s, srun (QBase k true) ws s /\ ended_base k true s.
Proof.
  induction 1 as [ws H|ws c ws' H Ha IH]; [now apply a_base|]. destruct (a_base k true _ H) as (s1 & R1 & E1). destruct IH as (s2 & R2 & E2).
  exists s2. split; [|exact E2]. apply srun_app. exists s1. split; auto. exists (QBase k true). split; [|exact R2]. destruct E1; st.
Qed.
Lemma a_expr k ws : w_expr ws -> exists s, srun (QBase k false) ws s /\ ended k s.
Proof.
  induction 1 as [ws H|ws p n H IH|ws p n c ws' H IH Ha].
  - destruct (a_base k false _ H) as (s & R & E). exists s. split; auto. eapply ended_base_ended; eauto.
  - destruct IH as (s & R & E). exists (QFilter k). split; [|constructor]. apply srun_app. exists s. split; auto. exists (QPipe k). split; [destruct E; st|].
    apply srun_one. st.
  - destruct IH as (s & R & E). destruct (a_args k _ Ha) as (s2 & R2 & E2). exists s2. split; [|eapply ended_base_ended; eauto]. apply srun_app. exists s. split; auto.
    exists (QPipe k). split; [destruct E; st|]. exists (QFilter k). split; [st|]. exists (QBase k true). split; [st|exact R2].
Qed.
Lemma base_head ws : w_expr ws -> exists w ws', ws = w :: ws' /\ is_kw w "not" = false.
Proof.
  induction 1 as [ws H|ws p n H IH|ws p n c ws' H IH Ha].
  - destruct H; eexists _, _; (split; [reflexivity|reflexivity]).
  - destruct IH as (w & ws1 & -> & E). eexists _, _. split; [reflexivity|exact E].
  - destruct IH as (w & ws1 & -> & E). eexists _, _. split; [reflexivity|exact E].
Qed.
Lemma fits_cond b s w : fits (QCond b) w <-> fits (QBase (CBlock b) s) w.
Proof. reflexivity. Qed.
Lemma a_cond b ws : w_cond ws -> exists s, srun (QCond b) ws s /\ ended (CBlock b) s.
Proof.
  destruct 1 as [ws H|ws H]; destruct (a_expr (CBlock b) _ H) as (s & R & E); exists s; (split; [|exact E]).
  - destruct (base_head _ H) as (w & ws' & -> & Ew). destruct R as (s1 & (S1 & S2 & S3) & R). exists s1. split; [|exact R].
    split; [|split; [exact S2|exact S3]]. cbn [nextq]. rewrite Ew. exact S1.
  - exists (QBase (CBlock b) false). split; [st|exact R].
Qed.
(** The end of a tag. *)
Lemma close_block b s : ended (CBlock b) s -> step s Eb QText (Some b).
Proof. destruct 1; st. Qed.
Lemma close_inline s : ended CInline s -> step s Ex QText None.
Proof. destruct 1; st. Qed.
Lemma a_inner ws b : w_inner ws b -> exists s, srun QBlock ws s /\ step s Eb QText (Some b).
Proof.
  destruct 1 as [ws H|ws H| | |v ws H|k c v ws H| |ws n H| |s o H|s o ws H1 H].
  - destruct (a_cond bIf _ H) as (s & R & E). exists s. split; [|now apply close_block]. exists (QCond bIf). split; [st|exact R].
  - destruct (a_cond bElseIf _ H) as (s & R & E). exists s. split; [|now apply close_block]. exists QElse. split; [st|]. exists (QCond bElseIf). split; [st|exact R].
  - exists QElse. split; [|st]. apply srun_one. st.
  - exists (QEnd bEndIf). split; [|st]. apply srun_one. st.
  - destruct (a_expr (CBlock bFor) _ H) as (s & R & E). exists s. split; [|now apply close_block]. exists QVars1. split; [st|]. exists QVars2. split; [st|].
    exists (QBase (CBlock bFor) false). split; [st|exact R].
  - destruct (a_expr (CBlock bFor) _ H) as (s & R & E). exists s. split; [|now apply close_block]. exists QVars1. split; [st|]. exists QVars2. split; [st|].
    exists QVars3. split; [st|]. exists QVars4. split; [st|]. exists (QBase (CBlock bFor) false). split; [st|exact R].
  - exists (QEnd bEndFor). split; [|st]. apply srun_one. st.
  - destruct (a_expr CAs _ H) as (s & R & E). exists (QEnd bWith). split; [|st]. exists (QBase CAs false). split; [st|]. apply srun_app. exists s. split; [exact R|].
    exists QAsName. split; [destruct E; st|]. apply srun_one. st.
  - exists (QEnd bEndWith). split; [|st]. apply srun_one. st.
  - exists QInc2. split; [|st]. exists QInc. split; [st|]. apply srun_one. st.
  - destruct (a_expr (CBlock bInclude) _ H) as (s' & R & E). exists s'. split; [|now apply close_block]. exists QInc. split; [st|]. exists QInc2. split; [st|].
    exists (QBase (CBlock bInclude) false). split; [st|exact R].
Qed.
Lemma a_tag ws b : w_tag ws b -> forall stk stk', effect stk b = Some stk' -> frun (stk, QText) ws (stk', QText).
Proof.
  intros (i & -> & H) stk stk' E. destruct (a_inner _ _ H) as (s & R & S). exists (stk, QBlock). split; [exists None; split; [st|reflexivity]|].
  apply frun_app. exists (stk, s). split; [now apply srun_frun|]. exists (stk', QText). split; [|reflexivity]. exists (Some b). auto.
Qed.
Lemma accepted : (forall ws, w_stmt ws -> forall stk, frun (stk, QText) ws (stk, QText)) /\
  (forall ws, w_scope ws -> forall stk, frun (stk, QText) ws (stk, QText)) /\
  (forall ws, w_else ws -> forall stk, frun (FIf false :: stk, QText) ws (stk, QText)).
Proof.
  apply w_mut.
  - intros s stk. exists (stk, QText). split; [|reflexivity]. exists None. split; [st|reflexivity].
  - intros ws He stk. destruct (a_expr CInline _ He) as (s & R & E). exists (stk, QBase CInline false). split; [exists None; split; [st|reflexivity]|].
    apply frun_app. exists (stk, s). split; [now apply srun_frun|]. exists (stk, QText). split; [|reflexivity]. exists None. split; [now apply close_inline|reflexivity].
  - intros t Ht stk. now apply (a_tag _ _ Ht).
  - intros t body rest Ht _ IHb _ IHe stk. apply frun_app. exists (FIf false :: stk, QText). split; [now apply (a_tag _ _ Ht)|]. apply frun_app. eauto.
  - intros t body t' Ht _ IHb Ht' stk. apply frun_app. exists (FFor :: stk, QText). split; [now apply (a_tag _ _ Ht)|]. apply frun_app. eexists. split; [apply IHb|now apply (a_tag _ _ Ht')].
  - intros t body t' Ht _ IHb Ht' stk. apply frun_app. exists (FWith :: stk, QText). split; [now apply (a_tag _ _ Ht)|]. apply frun_app. eexists. split; [apply IHb|now apply (a_tag _ _ Ht')].
  - reflexivity.
  - intros r ws _ IH stk. exists (stk, QC1). split; [exists None; split; [st|reflexivity]|]. exists (stk, QC2). split; [exists None; split; [st|reflexivity]|].
    exists (stk, QText). split; [exists None; split; [st|reflexivity]|]. apply IH.
  - intros ws ws' _ IHs _ IHl stk. apply frun_app. eauto.
  - intros t Ht stk. now apply (a_tag _ _ Ht).
  - intros t body t' Ht _ IHb Ht' stk. apply frun_app. exists (FIf true :: stk, QText). split; [now apply (a_tag _ _ Ht)|]. apply frun_app. eexists. split; [apply IHb|now apply (a_tag _ _ Ht')].
  - intros t body rest Ht _ IHb _ IHe stk. apply frun_app. exists (FIf false :: stk, QText). split; [now apply (a_tag _ _ Ht)|]. apply frun_app. eauto.
Qed.
Theorem sentence_run ws : sentence ws -> frun ([], QText) ws ([], QText).
Proof. intros H. apply sentence_iff in H. exact (proj1 (proj2 accepted) _ H []). Qed.

(** ** Everything the automaton reads can be completed *)
Definition CE (k : ctl) (p : list wd) : Prop :=
  match k with
  | CInline => p = [Bx]
  | CBlock b => exists i, p = Bb :: i /\ forall e, w_expr e -> w_inner (i ++ e) b
  | CAs => p = [Bb; key "with"]
  end.
Definition ARG (k : ctl) (p : list wd) : Prop :=
  exists p0 e x n c u, CE k p0 /\ w_expr e /\ p = p0 ++ e ++ (TPipe, x) :: (TIdent, n) :: (TColon, c) :: u /\
    (u = [] \/ exists u0 cm, w_args u0 /\ u = u0 ++ [(TComma, cm)]).
Definition BASE (k : ctl) (a : bool) (p : list wd) : Prop := if a then ARG k p else CE k p.
Definition EXPR (k : ctl) (p : list wd) : Prop := exists p0 e, p = p0 ++ e /\ CE k p0 /\ w_expr e.
Definition Inv (s : q) (p : list wd) : Prop :=
  match s with
  | QText => False
  | QBlock => p = [Bb]
  | QCond b => exists i, p = Bb :: i /\ forall c, w_cond c -> w_inner (i ++ c) b
  | QBase k a => BASE k a p
  | QNum k a neg => exists p0 s, p = p0 ++ [(if neg : bool then TMinus else TPlus, s)] /\ BASE k a p0
  | QVar k a => exists p0 s ms, p = p0 ++ (TIdent, s) :: ms /\ w_members ms /\ BASE k a p0
  | QAccess k a => exists p0 s ms o, p = p0 ++ (TIdent, s) :: ms ++ [o] /\ (fst o = TDot \/ fst o = TQuestionDot) /\ w_members ms /\ BASE k a p0
  | QAfter k a => exists p0 b, p = p0 ++ b /\ w_base b /\ BASE k a p0
  | QPipe k => exists p0 e x, p = p0 ++ e ++ [(TPipe, x)] /\ CE k p0 /\ w_expr e
  | QFilter k => exists p0 e x n, p = p0 ++ e ++ [(TPipe, x); (TIdent, n)] /\ CE k p0 /\ w_expr e
  | QElse => p = [Bb; key "else"]
  | QEnd b => exists i, p = Bb :: i /\ w_inner i b
  | QVars1 => p = [Bb; key "for"]
  | QVars2 => exists v, p = [Bb; key "for"; (TIdent, v)]
  | QVars3 => exists v c, p = [Bb; key "for"; (TIdent, v); (TComma, c)]
  | QVars4 => exists v c x, p = [Bb; key "for"; (TIdent, v); (TComma, c); (TIdent, x)]
  | QAsName => exists e, w_expr e /\ p = Bb :: key "with" :: e ++ [key "as"]
  | QInc => p = [Bb; key "include"]
  | QInc2 => exists s o, string_lit s o /\ p = [Bb; key "include"; (TString, s)]
  | QC1 => p = [Bc]
  | QC2 => exists r, p = [Bc; (TRaw, r)]
  end.

Lemma w_members_snoc ms o a : w_members ms -> (fst o = TDot \/ fst o = TQuestionDot) ->
  (fst a = TIdent \/ fst a = TIndex /\ exists v, index_lit (snd a) v) -> w_members (ms ++ [o; a]).
Proof. induction 1; intros; cbn [app]; constructor; auto. constructor. Qed.
Lemma w_args_snoc u c b : w_args u -> w_base b -> w_args (u ++ (TComma, c) :: b).
Proof. induction 1 as [ws H|ws c' ws' H Ha IH]; intros Hb; [apply wr_more; auto; now constructor|]. rewrite <- app_assoc. cbn [app]. apply wr_more; auto. Qed.

Lemma arg_done k p b : ARG k p -> w_base b -> exists p0 e x n c u, CE k p0 /\ w_expr e /\ w_args u /\
  p ++ b = p0 ++ e ++ (TPipe, x) :: (TIdent, n) :: (TColon, c) :: u.
Proof.
  intros (p0 & e & x & n & c & u & H1 & H2 & -> & [->|(u0 & cm & Hu & ->)]) Hb.
  - exists p0, e, x, n, c, b. repeat split; auto; [now constructor|]. rewrite <- !app_assoc. reflexivity.
  - exists p0, e, x, n, c, (u0 ++ (TComma, cm) :: b). repeat split; auto; [now apply w_args_snoc|].
    rewrite <- !app_assoc. cbn [app]. now rewrite <- app_assoc.
Qed.
Lemma base_done k a p b : BASE k a p -> w_base b -> EXPR k (p ++ b) /\ (a = true -> forall c, ARG k ((p ++ b) ++ [(TComma, c)])).
Proof.
  destruct a; cbn [BASE]; intros H Hb.
  - destruct (arg_done _ _ _ H Hb) as (p0 & e & x & n & c & u & H1 & H2 & H3 & E). split.
    + exists p0, (e ++ (TPipe, x) :: (TIdent, n) :: (TColon, c) :: u). split; [exact E|]. split; auto. now apply we_args.
    + intros _ cm. exists p0, e, x, n, c, (u ++ [(TComma, cm)]). repeat split; auto.
      * rewrite E, <- !app_assoc. reflexivity.
      * right. eauto.
  - split; [|discriminate]. exists p, b. repeat split; auto. now constructor.
Qed.

(** A complete tag. *)
Definition tag_done (o : option eff) (t : list wd) : Prop := match o with Some b => w_tag t b | None => w_scope t end.

Lemma clean_delim t s : clean (t, s) -> is_delimiter t = true -> s = [].
Proof. unfold clean. cbn. auto. Qed.
Lemma kw_is w s : is_kw w s = true -> w = key s.
Proof. destruct w as [t x]. unfold is_kw. cbn. destruct t; try discriminate. intros E. apply str_eqb_eq in E. now subst x. Qed.

Lemma expr_close k p w s' o : EXPR k p -> after_expr k w = Some (s', o) -> clean w ->
  (s' = QText /\ tag_done o (p ++ [w])) \/ (s' <> QText /\ o = None /\ Inv s' (p ++ [w])).
Proof.
  intros (p0 & e & -> & Hc & He) E Hw. destruct k as [|b|]; cbn [after_expr] in E.
  - destruct w as [t x]. cbn [fst] in E. destruct t; try discriminate. injection E as <- <-. left. split; auto. cbn in Hc. subst p0. cbn.
    rewrite (clean_delim _ _ Hw eq_refl). rewrite <- (app_nil_r (Bx :: _)). apply wsc_stmt; [|constructor]. now apply ws_inline.
  - destruct w as [t x]. cbn [fst] in E. destruct t; try discriminate. injection E as <- <-. left. split; auto. destruct Hc as (i & -> & Hi). cbn.
    rewrite (clean_delim _ _ Hw eq_refl). exists (i ++ e). split; auto.
  - destruct (is_kw w "as") eqn:Ek; [|discriminate]. apply kw_is in Ek as ->. injection E as <- <-. right. split; [discriminate|]. split; auto. cbn in Hc. subst p0.
    cbn. exists e. auto.
Qed.
Lemma base_close k a p b w s' o : BASE k a p -> w_base b -> after_base k a w = Some (s', o) -> clean w ->
  (s' = QText /\ tag_done o ((p ++ b) ++ [w])) \/ (s' <> QText /\ o = None /\ Inv s' ((p ++ b) ++ [w])).
Proof.
  intros H Hb E Hw. destruct (base_done _ _ _ _ H Hb) as [He Hc]. unfold after_base in E. destruct w as [t x]. cbn [fst] in E.
  destruct t; try (apply (expr_close k); assumption).
  - injection E as <- <-. right. split; [discriminate|]. split; auto. destruct He as (p0 & e & -> & H1 & H2). exists p0, e, x. now rewrite <- app_assoc.
  - destruct a; [|discriminate]. injection E as <- <-. right. split; [discriminate|]. split; auto. now apply Hc.
Qed.
Lemma base_step k a p w s' o st0 : BASE k a p -> at_base k a w = Some (s', o) -> (signed st0 = false) -> fits st0 w ->
  s' <> QText /\ o = None /\ Inv s' (p ++ [w]).
Proof.
  intros H E Hs Hf. unfold at_base in E. unfold fits in Hf. destruct w as [t x]. cbn [fst snd] in *. destruct t; try discriminate.
  - injection E as <- <-. split; [discriminate|]. split; auto. exists p, x. auto.
  - injection E as <- <-. split; [discriminate|]. split; auto. exists p, x. auto.
  - destruct (_ || _) eqn:Eb; [|discriminate]. injection E as <- <-. split; [discriminate|]. split; auto. exists p, [(TKeyword, x)]. split; auto. split; auto.
    apply orb_true_iff in Eb as [Eb|Eb]; apply str_eqb_eq in Eb as ->; constructor.
  - injection E as <- <-. split; [discriminate|]. split; auto. exists p, x, []. repeat split; auto. constructor.
  - injection E as <- <-. split; [discriminate|]. split; auto. rewrite Hs in Hf. destruct Hf as (v & Hv). exists p, [(TNumber, x)]. repeat split; auto. now apply wb_num with v.
  - injection E as <- <-. split; [discriminate|]. split; auto. destruct Hf as (v & Hv). exists p, [(TString, x)]. repeat split; auto. now apply wb_str with v.
Qed.

Lemma inv_step s p w s' o : Inv s p -> step s w s' o ->
  (s' = QText /\ tag_done o (p ++ [w])) \/ (s' <> QText /\ o = None /\ Inv s' (p ++ [w])).
Proof.
  intros H (E & Hf & Hc). destruct s as [| |b|k a|k a neg|k a|k a|k a|k|k| |b| | | | | | | | |]; cbn [Inv nextq] in H, E.
  - contradiction.
  - destruct w as [t x]. cbn [fst snd] in E. destruct t; try discriminate. destruct (at_block x) as [s1|] eqn:Ea; [|discriminate]. injection E as <- <-. right. subst p.
    unfold at_block in Ea.
    repeat match type of Ea with (if ?c then _ else _) = _ => destruct c eqn:?Eq end; try discriminate; injection Ea as <-;
      match goal with K : str_eqb x ?s = true |- _ => apply str_eqb_eq in K; subst x end; (split; [discriminate|]); (split; [reflexivity|]); cbn [Inv BASE CE app];
      try reflexivity; eexists; (split; [reflexivity|]); try (intros; constructor; assumption); constructor.
  - destruct H as (i & -> & Hi). destruct (is_kw w "not") eqn:Ek.
    + apply kw_is in Ek as ->. injection E as <- <-. right. split; [discriminate|]. split; auto. cbn [Inv BASE CE]. exists (i ++ [key "not"]). split; auto.
      intros e He. rewrite <- app_assoc. apply Hi. now apply wc_not.
    + right. apply (base_step (CBlock b) false _ _ _ _ (QCond b)); auto. exists i. split; auto. intros e He. apply Hi. now constructor.
  - right. apply (base_step k a _ _ _ _ (QBase k a)); auto.
  - destruct H as (p0 & x & -> & Hb). destruct w as [t y]. cbn [fst snd] in E. destruct t; try discriminate. injection E as <- <-. right. split; [discriminate|]. split; auto.
    destruct Hf as (v & Hv). cbn [signed snd] in Hv. exists p0. exists [(if neg then TMinus else TPlus, x); (TNumber, y)]. rewrite <- app_assoc. repeat split; auto.
    destruct neg; [now apply wb_minus with v|now apply wb_plus with v].
  - destruct H as (p0 & x & ms & -> & Hm & Hb). assert (Hv : w_base ((TIdent, x) :: ms)) by now constructor.
    destruct w as [t y]. cbn [fst snd] in E.
    destruct t; try (apply (base_close k a p0 _ _ _ _ Hb Hv); assumption);
      injection E as <- <-; right; (split; [discriminate|]); (split; [reflexivity|]); exists p0, x, ms; eexists; (split; [rewrite <- app_assoc; reflexivity|]); auto.
  - destruct H as (p0 & x & ms & d & -> & Hd & Hm & Hb). destruct w as [t y]. unfold fits in Hf. cbn [fst snd] in *. destruct t; try discriminate; injection E as <- <-; right; (split; [discriminate|]);
      (split; [reflexivity|]); exists p0, x; eexists; (split; [rewrite <- app_assoc; cbn [app]; rewrite <- app_assoc; reflexivity|]); (split; [apply w_members_snoc; auto|exact Hb]).
  - destruct H as (p0 & b & -> & Hb & HB). now apply (base_close k a).
  - destruct H as (p0 & e & x & -> & Hp & He). destruct w as [t y]. cbn [fst snd] in E. destruct t; try discriminate. injection E as <- <-. right. split; [discriminate|]. split; auto.
    exists p0, e, x, y. rewrite <- !app_assoc. auto.
  - destruct H as (p0 & e & x & n & -> & Hp & He). assert (HE : EXPR k (p0 ++ e ++ [(TPipe, x); (TIdent, n)])) by (exists p0, (e ++ [(TPipe, x); (TIdent, n)]); repeat split; auto; now apply we_call).
    destruct w as [t y]. cbn [fst snd] in E. destruct t; try (apply (expr_close k); assumption); injection E as <- <-; right; (split; [discriminate|]); (split; [reflexivity|]).
    + exists p0, (e ++ [(TPipe, x); (TIdent, n)]), y. split; [now rewrite <- app_assoc|]. split; auto. now apply we_call.
    + cbn [Inv BASE]. exists p0, e, x, n, y, []. repeat split; auto. now rewrite <- !app_assoc.
  - subst p. destruct (is_kw w "if") eqn:Ek.
    + apply kw_is in Ek as ->. injection E as <- <-. right. split; [discriminate|]. split; auto. eexists. split; [reflexivity|]. intros c Hcond. now constructor.
    + destruct w as [t y]. cbn [fst] in E. destruct t; try discriminate. injection E as <- <-. left. split; auto. cbn. rewrite (clean_delim _ _ Hc eq_refl).
      exists [key "else"]. split; [reflexivity|]. constructor.
  - destruct H as (i & -> & Hi). destruct w as [t y]. cbn [fst] in E. destruct t; try discriminate. injection E as <- <-. left. split; auto. cbn. rewrite (clean_delim _ _ Hc eq_refl). exists i. auto.
  - subst p. destruct w as [t y]. cbn [fst] in E. destruct t; try discriminate. injection E as <- <-. right. split; [discriminate|]. split; auto. exists y. reflexivity.
  - destruct H as (v & ->). destruct (is_kw w "in") eqn:Ek.
    + apply kw_is in Ek as ->. injection E as <- <-. right. split; [discriminate|]. split; auto. eexists. split; [reflexivity|]. intros e He. now constructor.
    + destruct w as [t y]. cbn [fst] in E. destruct t; try discriminate. injection E as <- <-. right. split; [discriminate|]. split; auto. exists v, y. reflexivity.
  - destruct H as (v & c & ->). destruct w as [t y]. cbn [fst] in E. destruct t; try discriminate. injection E as <- <-. right. split; [discriminate|]. split; auto. exists v, c, y. reflexivity.
  - destruct H as (v & c & x & ->). destruct (is_kw w "in") eqn:Ek; [|discriminate]. apply kw_is in Ek as ->. injection E as <- <-. right. split; [discriminate|]. split; auto.
    eexists. split; [reflexivity|]. intros e He. now constructor.
  - destruct H as (e & He & ->). destruct w as [t y]. cbn [fst] in E. destruct t; try discriminate. injection E as <- <-. right. split; [discriminate|]. split; auto.
    exists (key "with" :: e ++ [key "as"; (TIdent, y)]). split; [cbn [app]; now rewrite <- app_assoc|]. now constructor.
  - subst p. destruct w as [t y]. unfold fits in Hf. cbn [fst snd] in *. destruct t; try discriminate. injection E as <- <-. right. split; [discriminate|]. split; auto. destruct Hf as (v & Hv). exists y, v. auto.
  - destruct H as (x & v & Hv & ->). destruct (is_kw w "with") eqn:Ek.
    + apply kw_is in Ek as ->. injection E as <- <-. right. split; [discriminate|]. split; auto. eexists. split; [reflexivity|]. intros e He. now apply wi_include_with with v.
    + destruct w as [t y]. cbn [fst] in E. destruct t; try discriminate. injection E as <- <-. left. split; auto. cbn. rewrite (clean_delim _ _ Hc eq_refl).
      exists [key "include"; (TString, x)]. split; [reflexivity|]. now apply wi_include with v.
  - subst p. destruct w as [t y]. cbn [fst] in E. destruct t; try discriminate. injection E as <- <-. right. split; [discriminate|]. split; auto. exists y. reflexivity.
  - destruct H as (r & ->). destruct w as [t y]. cbn [fst] in E. destruct t; try discriminate. injection E as <- <-. left. split; auto. cbn. rewrite (clean_delim _ _ Hc eq_refl).
    apply (wsc_comment r []). constructor.
Qed.
(** Opening delimiters. *)
Lemma inv_open w s' o : step QText w s' o -> fst w <> TRaw -> s' <> QText /\ o = None /\ Inv s' [w].
Proof.
  intros (E & _ & Hc) Hr. destruct w as [t y]. cbn [nextq fst] in *. destruct t; try discriminate; try contradiction; rewrite (clean_delim _ _ Hc eq_refl); injection E as <- <-;
    (split; [discriminate|]); split; reflexivity.
Qed.

(** Completions. *)
Definition some_base : list wd := [key "true"].
Lemma some_base_ok : w_base some_base.
Proof. constructor. Qed.
Lemma finish_ce k p e : CE k p -> w_expr e -> exists c o, tag_done o ((p ++ e) ++ c).
Proof.
  destruct k as [|b|]; cbn [CE].
  - intros -> He. exists [Ex], None. cbn. rewrite <- (app_nil_r (Bx :: _)). apply wsc_stmt; [|constructor]. now apply ws_inline.
  - intros (i & -> & Hi) He. exists [Eb], (Some b). exists (i ++ e). split; auto.
  - intros -> He. exists [key "as"; (TIdent, []); Eb], (Some bWith). exists (key "with" :: e ++ [key "as"; (TIdent, [])]). split; [|now constructor].
    cbn [app]. now rewrite <- app_assoc.
Qed.
Lemma finish_expr k p : EXPR k p -> exists c o, tag_done o (p ++ c).
Proof. intros (p0 & e & -> & Hc & He). now apply (finish_ce k). Qed.
Lemma finish_base k a p b : BASE k a p -> w_base b -> exists c o, tag_done o ((p ++ b) ++ c).
Proof. intros H Hb. destruct (base_done _ _ _ _ H Hb) as [He _]. now apply (finish_expr k). Qed.
Lemma regroup {A} (Q : list A -> Prop) a b : (exists c, Q ((a ++ b) ++ c)) -> exists c, Q (a ++ c).
Proof. intros (c & H). rewrite <- app_assoc in H. eauto. Qed.

Lemma zero_lit neg : exists v, number_lit (s2b "0") neg v.
Proof.
  exists (VInt 0). apply nl_int. split; [cbv; split; discriminate|]. right. right. right. exists 0%Z. split; [|split].
  - intros (b & [E|[E|E]]); discriminate E.
  - refine (nu_digit 10 [] 0 x30 0 _ _ _); [constructor| |lia]. unfold digit. left. split; [reflexivity|lia].
  - now destruct neg.
Qed.
Lemma empty_lit : string_lit (s2b """""") [].
Proof. exists []. split; [vm_compute; reflexivity|constructor]. Qed.

Lemma regroup_t a b : (exists c o, tag_done o ((a ++ b) ++ c)) -> exists c o, tag_done o (a ++ c).
Proof. intros (c & o & H). rewrite <- app_assoc in H. eauto. Qed.
Lemma finish s p : Inv s p -> exists c o, tag_done o (p ++ c).
Proof.
  destruct s as [| |b|k a|k a neg|k a|k a|k a|k|k| |b| | | | | | | | |]; cbn [Inv].
  - contradiction.
  - intros ->. exists [key "endif"; Eb], (Some bEndIf). exists [key "endif"]. split; [reflexivity|constructor].
  - intros (i & -> & H). exists (some_base ++ [Eb]), (Some b). exists (i ++ some_base). split; [cbn; now rewrite <- app_assoc|]. apply H. apply wc_if, we_base, some_base_ok.
  - intros H. apply regroup_t with (b := some_base). exact (finish_base k a _ _ H some_base_ok).
  - intros (p0 & x & -> & H). destruct (zero_lit neg) as (v & Hv). apply regroup_t with (b := [(TNumber, s2b "0")]). rewrite <- (app_assoc p0).
    refine (finish_base k a p0 _ H _). destruct neg; [exact (wb_minus _ _ _ Hv)|exact (wb_plus _ _ _ Hv)].
  - intros (p0 & x & ms & -> & Hm & H). refine (finish_base k a p0 _ H _). now constructor.
  - intros (p0 & x & ms & d & -> & Hd & Hm & H). apply regroup_t with (b := [(TIdent, [])]). rewrite <- app_assoc. cbn [app]. rewrite <- app_assoc.
    refine (finish_base k a p0 _ H _). constructor. apply w_members_snoc; auto.
  - intros (p0 & b & -> & Hb & H). exact (finish_base k a p0 _ H Hb).
  - intros (p0 & e & x & -> & Hc & He). apply regroup_t with (b := [(TIdent, [])]). rewrite <- !app_assoc. rewrite app_assoc. rewrite <- (app_assoc p0).
    refine (finish_ce k p0 _ Hc _). now apply we_call.
  - intros (p0 & e & x & n & -> & Hc & He). refine (finish_ce k p0 _ Hc _). now apply we_call.
  - intros ->. exists [Eb], (Some bElse). exists [key "else"]. split; [reflexivity|constructor].
  - intros (i & -> & Hi). exists [Eb], (Some b). exists i. split; auto.
  - intros ->. exists [(TIdent, []); key "in"; key "true"; Eb], (Some bFor). eexists. split; [|apply (wi_for [] some_base); constructor; apply some_base_ok]. reflexivity.
  - intros (v & ->). exists [key "in"; key "true"; Eb], (Some bFor). eexists. split; [|apply (wi_for v some_base); constructor; apply some_base_ok]. reflexivity.
  - intros (v & c & ->). exists [(TIdent, []); key "in"; key "true"; Eb], (Some bFor). eexists. split; [|apply (wi_for2 v c [] some_base); constructor; apply some_base_ok]. reflexivity.
  - intros (v & c & x & ->). exists [key "in"; key "true"; Eb], (Some bFor). eexists. split; [|apply (wi_for2 v c x some_base); constructor; apply some_base_ok]. reflexivity.
  - intros (e & He & ->). exists [(TIdent, []); Eb], (Some bWith). exists (key "with" :: e ++ [key "as"; (TIdent, [])]). split; [|now constructor]. cbn [app]. now rewrite <- !app_assoc.
  - intros ->. exists [(TString, s2b """"""); Eb], (Some bInclude). eexists. split; [|exact (wi_include _ _ empty_lit)]. reflexivity.
  - intros (x & v & Hv & ->). exists [Eb], (Some bInclude). eexists. split; [|exact (wi_include _ _ Hv)]. reflexivity.
  - intros ->. exists [(TRaw, []); Ec], None. cbn. apply (wsc_comment [] []). constructor.
  - intros (r & ->). exists [Ec], None. cbn. apply (wsc_comment r []). constructor.
Qed.

(** ** Blocks *)
Definition opens (F : frame) (o : list wd) : Prop :=
  match F with
  | FIf false => forall body rest, w_scope body -> w_else rest -> w_stmt (o ++ body ++ rest)
  | FIf true => forall body t', w_scope body -> w_tag t' bEndIf -> w_stmt (o ++ body ++ t')
  | FFor => forall body t', w_scope body -> w_tag t' bEndFor -> w_stmt (o ++ body ++ t')
  | FWith => forall body t', w_scope body -> w_tag t' bEndWith -> w_stmt (o ++ body ++ t')
  end.
Fixpoint fill (st : list frame) (c : list wd) : Prop :=
  match st with
  | [] => w_scope c
  | F :: st' => exists c0 o body, c = c0 ++ o ++ body /\ fill st' c0 /\ opens F o /\ w_scope body
  end.
Lemma scope_app a b : w_scope a -> w_scope b -> w_scope (a ++ b).
Proof.
  intros Ha Hb. induction Ha as [|r ws _ IH|ws ws' Hs _ IH]; cbn [app]; auto; [now constructor|]. rewrite <- app_assoc. now apply wsc_stmt.
Qed.
Lemma scope_one s : w_stmt s -> w_scope s.
Proof. intros H. rewrite <- (app_nil_r s). apply wsc_stmt; auto. constructor. Qed.
Lemma fill_app st c s : fill st c -> w_scope s -> fill st (c ++ s).
Proof.
  destruct st as [|F st]; cbn [fill]; [apply scope_app|]. intros (c0 & o & body & -> & H1 & H2 & H3) Hs. exists c0, o, (body ++ s).
  rewrite <- !app_assoc. repeat split; auto. now apply scope_app.
Qed.
Lemma fill_effect st c t b st' : fill st c -> w_tag t b -> effect st b = Some st' -> fill st' (c ++ t).
Proof.
  intros H Ht E.
  assert (Push : forall F, opens F t -> fill (F :: st) (c ++ t)).
  { intros F HF. exists c, t, []. rewrite app_nil_r. repeat split; auto. constructor. }
  destruct b; cbn [effect] in E.
  - injection E as <-. apply Push. intros body rest Hb Hr. now apply ws_if.
  - destruct st as [|[[|]| |] st]; try discriminate. injection E as <-. destruct H as (c0 & o & body & -> & H1 & H2 & H3). cbn [fill]. exists c0, (o ++ body ++ t), [].
    rewrite app_nil_r, <- !app_assoc. repeat split; auto; [|constructor]. intros b t' Hb Ht'. rewrite <- !app_assoc. apply H2; auto. now apply wel_else.
  - destruct st as [|[[|]| |] st]; try discriminate. injection E as <-. destruct H as (c0 & o & body & -> & H1 & H2 & H3). cbn [fill]. exists c0, (o ++ body ++ t), [].
    rewrite app_nil_r, <- !app_assoc. repeat split; auto; [|constructor]. intros b r Hb Hr. rewrite <- !app_assoc. apply H2; auto. now apply wel_elseif.
  - destruct st as [|[e| |] st]; try discriminate. injection E as <-. destruct H as (c0 & o & body & -> & H1 & H2 & H3). rewrite <- !app_assoc. apply fill_app; auto.
    apply scope_one. destruct e; apply H2; auto. now constructor.
  - injection E as <-. apply Push. intros body t' Hb Hr. now apply ws_for.
  - destruct st as [|[e| |] st]; try discriminate. injection E as <-. destruct H as (c0 & o & body & -> & H1 & H2 & H3). rewrite <- !app_assoc. apply fill_app; auto.
    apply scope_one. apply H2; auto.
  - injection E as <-. apply Push. intros body t' Hb Hr. now apply ws_with.
  - destruct st as [|[e| |] st]; try discriminate. injection E as <-. destruct H as (c0 & o & body & -> & H1 & H2 & H3). rewrite <- !app_assoc. apply fill_app; auto.
    apply scope_one. apply H2; auto.
  - injection E as <-. apply fill_app; auto. apply scope_one. now constructor.
Qed.
Definition end_tag (s : string) : list wd := [Bb; key s; Eb].
Lemma end_if : w_tag (end_tag "endif") bEndIf. Proof. exists [key "endif"]. split; [reflexivity|constructor]. Qed.
Lemma end_for : w_tag (end_tag "endfor") bEndFor. Proof. exists [key "endfor"]. split; [reflexivity|constructor]. Qed.
Lemma end_with : w_tag (end_tag "endwith") bEndWith. Proof. exists [key "endwith"]. split; [reflexivity|constructor]. Qed.
Lemma fill_more st : forall c, fill st c -> exists more, w_scope (c ++ more).
Proof.
  induction st as [|F st IH]; intros c H; [exists []; now rewrite app_nil_r|]. destruct F as [e| |].
  - apply (regroup w_scope) with (b := end_tag "endif"). apply IH. apply (fill_effect (FIf e :: st) c _ bEndIf); auto. apply end_if.
  - apply (regroup w_scope) with (b := end_tag "endfor"). apply IH. apply (fill_effect (FFor :: st) c _ bEndFor); auto. apply end_for.
  - apply (regroup w_scope) with (b := end_tag "endwith"). apply IH. apply (fill_effect (FWith :: st) c _ bEndWith); auto. apply end_with.
Qed.

(** Where a run is. *)
Definition located (c : list frame * q) (ws : list wd) : Prop :=
  match snd c with
  | QText => fill (fst c) ws
  | s => exists a p, ws = a ++ p /\ fill (fst c) a /\ Inv s p
  end.
Lemma located_in st s ws : s <> QText -> (located (st, s) ws <-> exists a p, ws = a ++ p /\ fill st a /\ Inv s p).
Proof. destruct s; cbn; try reflexivity. contradiction. Qed.
Lemma located_step c ws w c' : located c ws -> fstep c w c' -> located c' (ws ++ [w]).
Proof.
  destruct c as [st s], c' as [st' s']. intros H (o & S & E). cbn [fst snd] in *.
  assert (D : s = QText \/ s <> QText) by (destruct s; (left; reflexivity) || (right; discriminate)). destruct D as [->|N].
  - cbn [located snd fst] in H. destruct (fst w) eqn:Ew; try (destruct S as (Sn & _); cbn in Sn; rewrite Ew in Sn; discriminate).
    + destruct S as (Sn & _). cbn in Sn. rewrite Ew in Sn. injection Sn as <- <-. cbn in E. subst st'. cbn. apply fill_app; auto. apply scope_one. destruct w as [t x]. cbn in Ew. subst t. constructor.
    + destruct (inv_open w s' o S) as (N & -> & I); [congruence|]. subst st'. apply located_in; auto. exists ws, [w]. auto.
    + destruct (inv_open w s' o S) as (N & -> & I); [congruence|]. subst st'. apply located_in; auto. exists ws, [w]. auto.
    + destruct (inv_open w s' o S) as (N & -> & I); [congruence|]. subst st'. apply located_in; auto. exists ws, [w]. auto.
  - apply located_in in H as (a & p & -> & Ha & Hp); auto. rewrite <- app_assoc. destruct (inv_step _ _ _ _ _ Hp S) as [[-> D]|(N' & -> & I)].
    + cbn [located snd fst]. destruct o as [b|]; cbn in D, E; [now apply (fill_effect st a _ b)|]. subst st'. now apply fill_app.
    + subst st'. apply located_in; auto. exists a, (p ++ [w]). auto.
Qed.
Lemma located_run ws c c' pre : located c pre -> frun c ws c' -> located c' (pre ++ ws).
Proof.
  revert c pre. induction ws as [|w ws IH]; intros c pre H R; [cbn in R; subst; now rewrite app_nil_r|]. destruct R as (c1 & S & R).
  specialize (IH c1 (pre ++ [w])). rewrite <- app_assoc in IH. apply IH; auto. now apply (located_step c).
Qed.
Lemma located_frun ws c : frun ([], QText) ws c -> located c ws.
Proof. intros H. apply (located_run ws ([], QText) c []); auto. cbn. constructor. Qed.

Lemma frun_viable ws st : frun ([], QText) ws (st, QText) -> viable ws.
Proof. intros H. apply located_frun in H. destruct (fill_more _ _ H) as (more & M). exists more. now apply sentence_iff. Qed.
Lemma frun_sentence ws : frun ([], QText) ws ([], QText) -> sentence ws.
Proof. intros H. apply located_frun in H. now apply sentence_iff. Qed.
Lemma viable_frun ws : viable ws -> exists c, frun ([], QText) ws c.
Proof. intros (more & H). apply sentence_run, frun_app in H as (c & H & _). eauto. Qed.

(** ** Tags *)
Definition plain (w : wd) : Prop := is_delimiter (fst w) = false.

Lemma at_base_kind k a w s' o : at_base k a w = Some (s', o) -> plain w /\ s' <> QText.
Proof.
  unfold at_base, plain. destruct w as [t x]. cbn [fst snd]. destruct t; try discriminate; try (intros E; injection E as <- <-; split; [reflexivity|discriminate]).
  destruct (_ || _); [|discriminate]. intros E. injection E as <- <-. split; [reflexivity|discriminate].
Qed.
Lemma kw_plain w x : is_kw w x = true -> plain w.
Proof. intros H. apply kw_is in H. subst w. reflexivity. Qed.
Lemma after_expr_kind k w s' o : after_expr k w = Some (s', o) -> (plain w <-> s' <> QText) /\ is_opening (fst w) = false.
Proof.
  destruct k as [|b|]; cbn [after_expr].
  - destruct w as [t x]. cbn [fst]. destruct t; try discriminate. intros E. injection E as <- <-. split; [|reflexivity]. split; [discriminate|contradiction].
  - destruct w as [t x]. cbn [fst]. destruct t; try discriminate. intros E. injection E as <- <-. split; [|reflexivity]. split; [discriminate|contradiction].
  - destruct (is_kw w "as") eqn:Ek; [|discriminate]. intros E. injection E as <- <-. apply kw_is in Ek. subst w. split; [|reflexivity]. split; [discriminate|reflexivity].
Qed.
Lemma after_base_kind k a w s' o : after_base k a w = Some (s', o) -> (plain w <-> s' <> QText) /\ is_opening (fst w) = false.
Proof.
  unfold after_base. destruct w as [t x]. cbn [fst]. destruct t; try apply after_expr_kind.
  - intros E. injection E as <- <-. split; [|reflexivity]. split; [discriminate|reflexivity].
  - destruct a; [|discriminate]. intros E. injection E as <- <-. split; [|reflexivity]. split; [discriminate|reflexivity].
Qed.
Lemma plain_opening w : plain w -> is_opening (fst w) = false.
Proof. unfold plain. now destruct (fst w). Qed.
(** Inside of a tag, exactly the closing delimiters lead out of it. *)
Lemma step_kind s w s' o : step s w s' o -> s <> QText -> (plain w <-> s' <> QText) /\ is_opening (fst w) = false.
Proof.
  intros (E & _ & _) N.
  assert (P : plain w /\ s' <> QText -> (plain w <-> s' <> QText) /\ is_opening (fst w) = false) by (intros [P Q]; split; [tauto|now apply plain_opening]).
  destruct s as [| |b|k a|k a neg|k a|k a|k a|k|k| |b| | | | | | | | |]; cbn [nextq] in E; try contradiction.
  - destruct w as [t x]. cbn [fst snd] in *. destruct t; try discriminate. destruct (at_block x) as [s1|] eqn:Ea; [|discriminate]. injection E as <- <-. apply P. split; [reflexivity|].
    unfold at_block in Ea. repeat match type of Ea with (if ?c then _ else _) = _ => destruct c end; try discriminate; injection Ea as <-; discriminate.
  - destruct (is_kw w "not") eqn:Ek; [|apply P; eapply at_base_kind; eauto]. injection E as <- <-. apply P. split; [eapply kw_plain; eauto|discriminate].
  - apply P. eapply at_base_kind; eauto.
  - destruct w as [t x]. cbn [fst] in *. destruct t; try discriminate. injection E as <- <-. apply P. split; [reflexivity|discriminate].
  - destruct w as [t x]. cbn [fst] in *. destruct t; try (eapply after_base_kind; eassumption); injection E as <- <-; apply P; (split; [reflexivity|discriminate]).
  - destruct w as [t x]. cbn [fst] in *. destruct t; try discriminate; injection E as <- <-; apply P; (split; [reflexivity|discriminate]).
  - eapply after_base_kind; eassumption.
  - destruct w as [t x]. cbn [fst] in *. destruct t; try discriminate; injection E as <- <-; apply P; (split; [reflexivity|discriminate]).
  - destruct w as [t x]. cbn [fst] in *. destruct t; try (eapply after_expr_kind; eassumption); injection E as <- <-; apply P; (split; [reflexivity|discriminate]).
  - destruct (is_kw w "if") eqn:Ek; [injection E as <- <-; apply P; split; [eapply kw_plain; eauto|discriminate]|].
    destruct w as [t x]. cbn [fst] in *. destruct t; try discriminate. injection E as <- <-. split; [|reflexivity]. split; [discriminate|contradiction].
  - destruct w as [t x]. cbn [fst] in *. destruct t; try discriminate. injection E as <- <-. split; [|reflexivity]. split; [discriminate|contradiction].
  - destruct w as [t x]. cbn [fst] in *. destruct t; try discriminate; injection E as <- <-; apply P; (split; [reflexivity|discriminate]).
  - destruct (is_kw w "in") eqn:Ek; [injection E as <- <-; apply P; split; [eapply kw_plain; eauto|discriminate]|].
    destruct w as [t x]. cbn [fst] in *. destruct t; try discriminate; injection E as <- <-; apply P; (split; [reflexivity|discriminate]).
  - destruct w as [t x]. cbn [fst] in *. destruct t; try discriminate; injection E as <- <-; apply P; (split; [reflexivity|discriminate]).
  - destruct (is_kw w "in") eqn:Ek; [injection E as <- <-; apply P; split; [eapply kw_plain; eauto|discriminate]|discriminate].
  - destruct w as [t x]. cbn [fst] in *. destruct t; try discriminate; injection E as <- <-; apply P; (split; [reflexivity|discriminate]).
  - destruct w as [t x]. cbn [fst] in *. destruct t; try discriminate; injection E as <- <-; apply P; (split; [reflexivity|discriminate]).
  - destruct (is_kw w "with") eqn:Ek; [injection E as <- <-; apply P; split; [eapply kw_plain; eauto|discriminate]|].
    destruct w as [t x]. cbn [fst] in *. destruct t; try discriminate. injection E as <- <-. split; [|reflexivity]. split; [discriminate|contradiction].
  - destruct w as [t x]. cbn [fst] in *. destruct t; try discriminate; injection E as <- <-; apply P; (split; [reflexivity|discriminate]).
  - destruct w as [t x]. cbn [fst] in *. destruct t; try discriminate. injection E as <- <-. split; [|reflexivity]. split; [discriminate|contradiction].
Qed.
Lemma step_opening s w s' o : step s w s' o -> is_opening (fst w) = true -> s = QText.
Proof.
  intros S Ho. assert (D : s = QText \/ s <> QText) by (destruct s; (left; reflexivity) || (right; discriminate)). destruct D as [|N]; auto.
  apply step_kind in S as [_ E]; auto. congruence.
Qed.
Lemma q_text (s : q) : s = QText \/ s <> QText.
Proof. destruct s; (left; reflexivity) || (right; discriminate). Qed.

(** Words inside of a tag. *)
Lemma srun_inner s p ws s' : s <> QText -> Inv s p -> Forall plain ws -> srun s ws s' -> s' <> QText /\ Inv s' (p ++ ws).
Proof.
  revert s p. induction ws as [|w ws IH]; intros s p N I F R; [cbn in R; subst; now rewrite app_nil_r|]. inversion F as [|? ? F1 F2]; subst. destruct R as (s1 & S & R).
  destruct (step_kind _ _ _ _ S N) as [K _]. apply K in F1. destruct (inv_step _ _ _ _ _ I S) as [[-> _]|(_ & _ & I1)]; [contradiction|].
  destruct (IH s1 (p ++ [w]) F1 I1 F2 R) as [N' I']. rewrite <- app_assoc in I'. auto.
Qed.
(** [part] is the beginning of a tag: an opening delimiter and what follows it. *)
Definition tag_words (ws : list wd) : Prop := exists w inner, ws = w :: inner /\ is_opening (fst w) = true /\ Forall plain inner.
Lemma tag_inv ws s : tag_words ws -> srun QText ws s -> s <> QText /\ Inv s ws.
Proof.
  intros (w & inner & -> & Ho & F) (s1 & S & R). destruct (inv_open _ _ _ S) as (N & _ & I); [intros E; rewrite E in Ho; discriminate|].
  exact (srun_inner _ _ _ _ N I F R).
Qed.
Lemma scope_nil : w_scope []. Proof. constructor. Qed.
Lemma tag_possible t b : w_tag t b -> exists before more, w_scope (before ++ t ++ more).
Proof.
  intros Ht.
  assert (Hi : w_tag [Bb; key "if"; key "true"; Eb] bIf) by (exists [key "if"; key "true"]; split; [reflexivity|]; apply wi_if, wc_if, we_base, some_base_ok).
  assert (Hf : w_tag [Bb; key "for"; (TIdent, []); key "in"; key "true"; Eb] bFor) by (eexists; split; [|apply (wi_for [] some_base), we_base, some_base_ok]; reflexivity).
  assert (Hw : w_tag [Bb; key "with"; key "true"; key "as"; (TIdent, []); Eb] bWith) by (eexists; split; [|apply (wi_with some_base []), we_base, some_base_ok]; reflexivity).
  pose proof scope_nil as N. destruct b.
  - exists [], (end_tag "endif"). apply scope_one. apply (ws_if t [] (end_tag "endif")); auto. constructor. apply end_if.
  - exists [Bb; key "if"; key "true"; Eb], (end_tag "endif"). apply scope_one. apply (ws_if [Bb; key "if"; key "true"; Eb] [] (t ++ end_tag "endif")); auto. apply (wel_else t [] (end_tag "endif")); auto. apply end_if.
  - exists [Bb; key "if"; key "true"; Eb], (end_tag "endif"). apply scope_one. apply (ws_if [Bb; key "if"; key "true"; Eb] [] (t ++ end_tag "endif")); auto.
    apply (wel_elseif t [] (end_tag "endif")); auto. constructor. apply end_if.
  - exists [Bb; key "if"; key "true"; Eb], []. rewrite app_nil_r. apply scope_one. apply (ws_if [Bb; key "if"; key "true"; Eb] [] t); auto. now constructor.
  - exists [], (end_tag "endfor"). apply scope_one. apply (ws_for t [] (end_tag "endfor")); auto. apply end_for.
  - exists [Bb; key "for"; (TIdent, []); key "in"; key "true"; Eb], []. rewrite app_nil_r. apply scope_one. apply (ws_for [Bb; key "for"; (TIdent, []); key "in"; key "true"; Eb] [] t); auto.
  - exists [], (end_tag "endwith"). apply scope_one. apply (ws_with t [] (end_tag "endwith")); auto. apply end_with.
  - exists [Bb; key "with"; key "true"; key "as"; (TIdent, []); Eb], []. rewrite app_nil_r. apply scope_one. apply (ws_with [Bb; key "with"; key "true"; key "as"; (TIdent, []); Eb] [] t); auto.
  - exists [], []. cbn [app]. rewrite app_nil_r. apply scope_one. now constructor.
Qed.
Lemma done_possible o t : tag_done o t -> exists before more, w_scope (before ++ t ++ more).
Proof.
  destruct o as [b|]; cbn [tag_done]; [apply tag_possible|]. intros H. exists [], []. now rewrite app_nil_r.
Qed.
(** The beginning of a tag that the automaton reads occurs in a template... *)
Lemma part_possible ws s : tag_words ws -> srun QText ws s -> possible ws.
Proof.
  intros T R. destruct (tag_inv _ _ T R) as [_ I]. destruct (finish _ _ I) as (c & o & D). destruct (done_possible _ _ D) as (before & more & H).
  exists before, (c ++ more). apply sentence_iff. now rewrite <- app_assoc in H.
Qed.
Lemma full_possible ws s w o : tag_words ws -> srun QText ws s -> step s w QText o -> possible (ws ++ [w]).
Proof.
  intros T R S. destruct (tag_inv _ _ T R) as [N I]. destruct (inv_step _ _ _ _ _ I S) as [[_ D]|(N' & _)]; [|contradiction].
  destruct (done_possible _ _ D) as (before & more & H). exists before, more. now apply sentence_iff.
Qed.
(** ... every run over it is this one ... *)
Lemma tag_run before ws more c : tag_words ws -> frun ([], QText) (before ++ ws ++ more) c ->
  exists st c', frun ([], QText) before (st, QText) /\ frun (st, QText) ws c' /\ frun c' more c.
Proof.
  intros (w & inner & -> & Ho & F) R. apply frun_app in R as ([st s] & R1 & R). apply frun_app in R as (c' & R2 & R3).
  assert (s = QText) as ->. { destruct R2 as (c2 & (o & S & _) & _). eapply step_opening; eauto. } exists st, c'. auto.
Qed.
(** ... so what the automaton does not read is impossible. *)
Lemma not_possible ws s w : tag_words ws -> srun QText ws s -> (forall s' o, ~ step s w s' o) -> ~ possible (ws ++ [w]).
Proof.
  intros T R No (before & more & H). apply sentence_run in H. rewrite <- app_assoc in H. destruct (tag_run _ _ _ _ T H) as (st & c' & _ & R2 & R3).
  assert (E : c' = (st, s)) by (eapply frun_fun; [exact R2|now apply srun_frun]). subst c'. destruct R3 as (c3 & (o & S & _) & _). exact (No _ _ S).
Qed.
Lemma not_final ws s : tag_words ws -> srun QText ws s -> ~ final ws.
Proof.
  intros T R (before & H). apply sentence_run in H. rewrite <- (app_nil_r ws) in H. destruct (tag_run _ _ _ _ T H) as (st & c' & _ & R2 & R3).
  assert (E : c' = (st, s)) by (eapply frun_fun; [exact R2|now apply srun_frun]). subst c'. cbn in R3. injection R3 as _ <-. destruct (tag_inv _ _ T R) as [N _]. contradiction.
Qed.
Lemma not_viable st whole ws s w b : frun ([], QText) whole (st, QText) -> srun QText ws s -> step s w QText (Some b) ->
  effect st b = None -> ~ viable (whole ++ ws ++ [w]).
Proof.
  intros R1 R2 S E (more & H). apply sentence_run in H. rewrite <- !app_assoc in H. apply frun_app in H as (c1 & H1 & H). apply frun_app in H as (c2 & H2 & H). destruct H as (c3 & (o & S' & E') & _).
  rewrite (frun_fun _ _ _ _ H1 R1) in H2. rewrite (frun_fun _ _ _ _ H2 (srun_frun st _ _ _ R2)) in *. cbn [snd fst] in *.
  destruct (step_fun _ _ _ _ _ _ S' S) as [_ ->]. congruence.
Qed.

(** A minus sign right before a word. *)
Lemma minus_state s w s' o : step s w s' o -> (signed s' = true <-> fst w = TMinus).
Proof.
  intros (E & _ & _). split.
  - intros Hs. destruct s' as [| | | |k a neg| | | | | | | | | | | | | | | |]; try discriminate. cbn in Hs. subst neg.
    assert (B : forall k' a', at_base k' a' w = Some (QNum k a true, o) -> fst w = TMinus).
    { intros k' a'. unfold at_base. destruct (fst w); try discriminate; auto. destruct (_ || _); discriminate. }
    assert (AE : forall k', after_expr k' w <> Some (QNum k a true, o)).
    { intros k'. destruct k'; cbn [after_expr]; [destruct (fst w); discriminate|destruct (fst w); discriminate|destruct (is_kw w "as"); discriminate]. }
    assert (AB : forall k' a', after_base k' a' w <> Some (QNum k a true, o)).
    { intros k' a'. unfold after_base. destruct (fst w); try apply AE; [discriminate|destruct a'; discriminate]. }
    destruct s as [| |b0|k0 a0|k0 a0 neg0|k0 a0|k0 a0|k0 a0|k0|k0| |b0| | | | | | | | |]; cbn [nextq] in E;
      try (eapply B; exact E); try (exfalso; eapply AB; exact E);
      try (destruct (is_kw w _); [discriminate|]);
      try (eapply B; exact E);
      try (destruct (fst w) eqn:Ew; try discriminate; try reflexivity; exfalso; first [eapply AB; exact E | eapply AE; exact E]).
    destruct (fst w); try discriminate. unfold at_block in E. repeat match type of E with context [if ?c then _ else _] => destruct c end; discriminate.
  - intros Ew.
    assert (B : forall k' a', at_base k' a' w = Some (s', o) -> signed s' = true).
    { intros k' a'. unfold at_base. rewrite Ew. intros E'. injection E' as <- <-. reflexivity. }
    assert (AE : forall k', after_expr k' w <> Some (s', o)).
    { intros k'. destruct k'; cbn [after_expr]; unfold is_kw; rewrite Ew; discriminate. }
    assert (AB : forall k' a', after_base k' a' w <> Some (s', o)).
    { intros k' a'. unfold after_base. rewrite Ew. apply AE. }
    destruct s as [| |b0|k0 a0|k0 a0 neg0|k0 a0|k0 a0|k0 a0|k0|k0| |b0| | | | | | | | |]; cbn [nextq] in E; unfold is_kw in E; rewrite ?Ew in E; try discriminate;
      try (eapply B; exact E); exfalso; first [eapply AB; exact E | eapply AE; exact E].
Qed.
Lemma minus_run ws s : srun QText ws s -> (signed s = true <-> exists before x, ws = before ++ [(TMinus, x)]).
Proof.
  intros R. destruct ws as [|w ws] using rev_ind.
  - cbn in R. subst s. split; [discriminate|]. intros (before & x & E). destruct before; discriminate.
  - clear IHws. apply srun_app in R as (s1 & _ & S). apply srun_one in S. rewrite (minus_state _ _ _ _ S). split.
    + intros E. destruct w as [t x]. cbn in E. subst t. eauto.
    + intros (before & x & E). apply app_inj_tail in E as [_ ->]. reflexivity.
Qed.
End Automaton.
