(** The compiler never fails on a parsed template, and emits relocatable code. *)
From Verif Require Import Base Utf8 Ext Errors Syntax AhoCorasick Value Ast Lexer Wp Parser AstOk Compiler.

Section StmtInd.
Variable P : stmt -> Prop.
Hypothesis Hraw : forall sp, P (SRaw sp).
Hypothesis Hinline : forall e sp, P (SInline e sp).
Hypothesis Hinclude : forall n g, P (SInclude n g).
Hypothesis Hif : forall n c t e, Forall P t -> match e with Some l => Forall P l | None => True end -> P (SIf n c t e).
Hypothesis Hfor : forall v e b, Forall P b -> P (SFor v e b).
Hypothesis Hwith : forall e n b, Forall P b -> P (SWith e n b).
Fixpoint stmt_ind' (s : stmt) : P s :=
  let all := fix all (l : list stmt) : Forall P l :=
    match l with [] => Forall_nil P | s :: l => Forall_cons s (stmt_ind' s) (all l) end in
  match s with
  | SRaw sp => Hraw sp
  | SInline e sp => Hinline e sp
  | SInclude n g => Hinclude n g
  | SIf n c t e => Hif n c t e (all t) (match e with Some l => all l | None => I end)
  | SFor v e b => Hfor v e b (all b)
  | SWith e n b => Hwith e n b (all b)
  end.
End StmtInd.

(** ** The code of each construct *)
Definition cbase (b : base_expr) : instr :=
  match b with BVar v => IExprStart v | BLit v _ => IExprStartLit v end.
Fixpoint cexpr (e : expr) : list instr :=
  match e with
  | EBase b => [cbase b]
  | ECall name a receiver sp => cexpr receiver ++ [IApply name sp a]
  end.
Definition span_or (e : expr) : span := match @expr_span error e with Ok sp => sp | _ => mkspan 0 0 end.
Definition cinline (e : expr) : list instr :=
  match e with
  | ECall name None receiver _ => cexpr receiver ++ [IEmitWith name (span_or e)]
  | _ => cexpr e ++ [IEmit (span_or e)]
  end.
Fixpoint cstmt (off : nat) (s : stmt) {struct s} : list instr :=
  let cscope := fix cscope (off : nat) (l : list stmt) {struct l} : list instr :=
    match l with
    | [] => []
    | s :: l' => let c := cstmt off s in c ++ cscope (off + length c) l'
    end in
  match s with
  | SRaw sp => [IEmitRaw sp]
  | SInline e _ => cinline e
  | SInclude name (Some g) => cexpr g ++ [IIncludeWith name]
  | SInclude name None => [IInclude name]
  | SIf n c thn None =>
    let o1 := off + length (cexpr c) + 1 in
    let ct := cscope o1 thn in
    let tgt := Some (o1 + length ct) in
    cexpr c ++ (if n then IJumpIfTrue tgt else IJumpIfFalse tgt) :: ct
  | SIf n c thn (Some els) =>
    let o1 := off + length (cexpr c) + 1 in
    let ct := cscope o1 thn in
    let o2 := o1 + length ct + 1 in
    let ce := cscope o2 els in
    let tgt := Some o2 in
    cexpr c ++ (if n then IJumpIfTrue tgt else IJumpIfFalse tgt) :: ct ++ IJump (Some (o2 + length ce)) :: ce
  | SFor vars e body =>
    let j := off + length (cexpr e) + 1 in
    let cb := cscope (j + 1) body in
    cexpr e ++ ILoopStart vars (span_or e) :: ILoopNext (Some (j + 1 + length cb + 1)) :: cb ++ [IJump (Some j)]
  | SWith e name body =>
    let cb := cscope (off + length (cexpr e) + 1) body in
    cexpr e ++ IWithStart name :: cb ++ [IWithEnd]
  end.
Fixpoint cscope (off : nat) (l : list stmt) : list instr :=
  match l with
  | [] => []
  | s :: l' => let c := cstmt off s in c ++ cscope (off + length c) l'
  end.

Lemma compile_expr_code e : forall code, compile_expr code e = code ++ cexpr e.
Proof.
  induction e as [b|name a recv IH sp]; intros code; simpl.
  - destruct b; reflexivity.
  - rewrite IH. unfold push. now rewrite <- app_assoc.
Qed.
Lemma pop_emit_code e code sp : @expr_span error e = Ok sp ->
  pop_emit_expr (compile_expr code e) sp = code ++ cinline e.
Proof.
  intros E. assert (Es : span_or e = sp) by (unfold span_or; now rewrite E).
  rewrite compile_expr_code. unfold pop_emit_expr. rewrite rev_app_distr.
  destruct e as [b|name a recv s].
  - cbn [cexpr rev app]. unfold cinline. rewrite Es. cbn [cexpr]. unfold push. rewrite <- app_assoc.
    destruct b; reflexivity.
  - cbn [cexpr]. rewrite rev_app_distr. cbn [rev app]. unfold cinline. rewrite Es. destruct a as [a|].
    + unfold push. cbn [cexpr]. rewrite <- app_assoc. reflexivity.
    + unfold push. rewrite rev_app_distr, !rev_involutive. now rewrite <- app_assoc.
Qed.

Lemma upd_app {A} (a b : list A) x f : upd (length a) f (a ++ x :: b) = a ++ f x :: b.
Proof. induction a as [|y a IH]; simpl; auto. now rewrite IH. Qed.
Lemma nth_mid {A} (a b : list A) x : nth_error (a ++ x :: b) (length a) = Some x.
Proof. induction a; simpl; auto. Qed.

Lemma update_jump_mid a i b i' :
  (match i with
   | IJump _ => i' = IJump (Some (length (a ++ i :: b)))
   | IJumpIfTrue _ => i' = IJumpIfTrue (Some (length (a ++ i :: b)))
   | IJumpIfFalse _ => i' = IJumpIfFalse (Some (length (a ++ i :: b)))
   | ILoopNext _ => i' = ILoopNext (Some (length (a ++ i :: b)))
   | _ => False end) ->
  update_jump (a ++ i :: b) (length a) = Ok (a ++ i' :: b).
Proof.
  intros H. unfold update_jump. rewrite nth_mid. destruct i; try contradiction; subst i'; now rewrite upd_app.
Qed.

Section CompileOk.
Context `{X : Ext}.
Variable source : str.

Lemma compile_scope_of l : Forall (fun s => stmt_ok source s -> forall code, compile_stmt code s = Ok (code ++ cstmt (length code) s)) l ->
  Forall (stmt_ok source) l -> forall code, compile_scope code l = Ok (code ++ cscope (length code) l).
Proof.
  induction 1 as [|s l Hs Hl IH]; intros Hok code; cbn [compile_scope cscope].
  - now rewrite app_nil_r.
  - inversion Hok; subst. rewrite Hs by assumption. cbn [bind]. rewrite IH by assumption.
    rewrite app_length, <- app_assoc. reflexivity.
Qed.

(* the local [compile_scope] is the global one *)
Lemma compile_stmt_if code n c t e : compile_stmt code (SIf n c t e) =
    (let code := compile_expr code c in
    let j := length code in
    let code := push code (if n then IJumpIfTrue None else IJumpIfFalse None) in
    let* code := compile_scope code t in
    match e with
    | Some els =>
      let j2 := length code in
      let code := push code (IJump None) in
      let* code := update_jump code j in
      let* code := compile_scope code els in
      update_jump code j2
    | None => update_jump code j
    end).
Proof. reflexivity. Qed.
Lemma compile_stmt_for code vars e body : compile_stmt code (SFor vars e body) =
    (let* sp := expr_span e in
    let code := compile_expr code e in
    let code := push code (ILoopStart vars sp) in
    let j := length code in
    let code := push code (ILoopNext None) in
    let* code := compile_scope code body in
    let code := push code (IJump (Some j)) in
    update_jump code j).
Proof. reflexivity. Qed.
Lemma compile_stmt_with code e name body : compile_stmt code (SWith e name body) =
    (let code := compile_expr code e in
    let code := push code (IWithStart name) in
    let* code := compile_scope code body in
    Ok (push code IWithEnd)).
Proof. reflexivity. Qed.
Lemma cstmt_if off n c t : cstmt off (SIf n c t None) =
    (let o1 := off + length (cexpr c) + 1 in
    let ct := cscope o1 t in
    let tgt := Some (o1 + length ct) in
    cexpr c ++ (if n then IJumpIfTrue tgt else IJumpIfFalse tgt) :: ct).
Proof. reflexivity. Qed.
Lemma cstmt_if_else off n c t els : cstmt off (SIf n c t (Some els)) =
    (let o1 := off + length (cexpr c) + 1 in
    let ct := cscope o1 t in
    let o2 := o1 + length ct + 1 in
    let ce := cscope o2 els in
    let tgt := Some o2 in
    cexpr c ++ (if n then IJumpIfTrue tgt else IJumpIfFalse tgt) :: ct ++ IJump (Some (o2 + length ce)) :: ce).
Proof. reflexivity. Qed.
Lemma cstmt_for off vars e body : cstmt off (SFor vars e body) =
    (let j := off + length (cexpr e) + 1 in
    let cb := cscope (j + 1) body in
    cexpr e ++ ILoopStart vars (span_or e) :: ILoopNext (Some (j + 1 + length cb + 1)) :: cb ++ [IJump (Some j)]).
Proof. reflexivity. Qed.
Lemma cstmt_with off e name body : cstmt off (SWith e name body) =
    (let cb := cscope (off + length (cexpr e) + 1) body in
    cexpr e ++ IWithStart name :: cb ++ [IWithEnd]).
Proof. reflexivity. Qed.

Ltac len := repeat (rewrite app_length || (progress cbn [length])); try lia.

Lemma compile_stmt_ok s : stmt_ok source s -> forall code, compile_stmt code s = Ok (code ++ cstmt (length code) s).
Proof.
  induction s as [sp|e sp|n g|n c t e Ht He|v e b Hb|e n b Hb] using stmt_ind'; intros Hok code.
  - reflexivity.
  - inversion Hok as [|? ? He| | | | | |]; subst. destruct (expr_span_total (E := error) source e He) as (s & Es).
    cbn [compile_stmt cstmt]. rewrite Es. cbn [bind]. now rewrite pop_emit_code.
  - destruct g as [g|]; cbn [compile_stmt cstmt]; unfold push; [|reflexivity].
    rewrite compile_expr_code. now rewrite <- app_assoc.
  - rewrite compile_stmt_if. cbv zeta. rewrite compile_expr_code. unfold push. destruct e as [e|].
    + inversion Hok as [| | | | |? ? ? ? K1 K2 K3| |]; subst.
      rewrite (compile_scope_of t Ht K2). cbn [bind].
      replace (length ((code ++ cexpr c) ++ [if n then IJumpIfTrue None else IJumpIfFalse None])) with (length code + length (cexpr c) + 1) by len.
      set (ct := cscope (length code + length (cexpr c) + 1) t).
      replace ((((code ++ cexpr c) ++ [if n then IJumpIfTrue None else IJumpIfFalse None]) ++ ct) ++ [IJump None])
        with ((code ++ cexpr c) ++ (if n then IJumpIfTrue None else IJumpIfFalse None) :: ct ++ [IJump None]) by (now rewrite <- !app_assoc).
      set (J := let tgt := Some (length code + length (cexpr c) + 1 + length ct + 1) in if n then IJumpIfTrue tgt else IJumpIfFalse tgt).
      rewrite update_jump_mid with (i' := J).
      2:{ unfold J. destruct n; cbv zeta; do 2 f_equal; len. }
      cbn [bind]. rewrite (compile_scope_of e He K3). cbn [bind].
      rewrite cstmt_if_else. cbv zeta. fold ct.
      replace (length ((code ++ cexpr c) ++ J :: ct ++ [IJump None])) with (length code + length (cexpr c) + 1 + length ct + 1) by len.
      set (ce := cscope _ e).
      replace (((code ++ cexpr c) ++ J :: ct ++ [IJump None]) ++ ce) with ((code ++ cexpr c ++ J :: ct) ++ IJump None :: ce)
        by (rewrite <- !app_assoc; cbn [app]; now rewrite <- !app_assoc).
      replace (length (((code ++ cexpr c) ++ [if n then IJumpIfTrue None else IJumpIfFalse None]) ++ ct)) with (length (code ++ cexpr c ++ J :: ct))
        by len.
      rewrite update_jump_mid with (i' := IJump (Some (length code + length (cexpr c) + 1 + length ct + 1 + length ce))).
      2:{ do 2 f_equal. len. }
      now rewrite <- !app_assoc.
    + inversion Hok as [| | | |? ? ? K1 K2| | |]; subst.
      rewrite (compile_scope_of t Ht K2). cbn [bind].
      rewrite cstmt_if. cbv zeta.
      replace (length ((code ++ cexpr c) ++ [if n then IJumpIfTrue None else IJumpIfFalse None])) with (length code + length (cexpr c) + 1) by len.
      set (ct := cscope (length code + length (cexpr c) + 1) t).
      rewrite <- (app_assoc (code ++ cexpr c)). cbn [app].
      rewrite update_jump_mid with (i' := let tgt := Some (length code + length (cexpr c) + 1 + length ct) in
         if n then IJumpIfTrue tgt else IJumpIfFalse tgt).
      2:{ destruct n; cbv zeta; do 2 f_equal; len. }
      now rewrite <- app_assoc.
  - inversion Hok as [| | | | | |? ? ? K1 K2 K3|]; subst. destruct (expr_span_total (E := error) source e K2) as (s & Es).
    rewrite compile_stmt_for, Es. cbn [bind]. cbv zeta. rewrite compile_expr_code. unfold push.
    rewrite (compile_scope_of b Hb K3). cbn [bind]. rewrite cstmt_for. cbv zeta.
    replace (span_or e) with s by (unfold span_or; now rewrite Es).
    replace (length (((code ++ cexpr e) ++ [ILoopStart v s]) ++ [ILoopNext None])) with (length code + length (cexpr e) + 1 + 1) by len.
    set (cb := cscope _ b).
    replace (length ((code ++ cexpr e) ++ [ILoopStart v s])) with (length code + length (cexpr e) + 1) by len.
    set (j := length code + length (cexpr e) + 1).
    replace ((((((code ++ cexpr e) ++ [ILoopStart v s]) ++ [ILoopNext None]) ++ cb) ++ [IJump (Some j)])) with
      ((code ++ cexpr e ++ [ILoopStart v s]) ++ ILoopNext None :: cb ++ [IJump (Some j)]) by (now rewrite <- !app_assoc).
    replace j with (length (code ++ cexpr e ++ [ILoopStart v s])) at 2 by (unfold j; len).
    rewrite update_jump_mid with (i' := ILoopNext (Some (j + 1 + length cb + 1))).
    2:{ do 2 f_equal. unfold j. len. }
    now rewrite <- !app_assoc.
  - inversion Hok as [| | | | | | |? ? ? K1 K2 K3]; subst.
    rewrite compile_stmt_with. cbv zeta. rewrite compile_expr_code. unfold push.
    rewrite (compile_scope_of b Hb K3). cbn [bind]. rewrite cstmt_with. cbv zeta.
    replace (length ((code ++ cexpr e) ++ [IWithStart n])) with (length code + length (cexpr e) + 1) by len.
    now rewrite <- !app_assoc.
Qed.

Theorem compile_scope_ok l : Forall (stmt_ok source) l -> compile_scope [] l = Ok (cscope 0 l).
Proof.
  intros H. apply (compile_scope_of l) with (code := []); auto.
  clear H. induction l; constructor; auto. intros. now apply compile_stmt_ok.
Qed.
End CompileOk.
