(** Environments in which the same is found (C54). *)
From Verif Require Import Base Ext Errors Value Ast Fmt Stack Filters Render RenderProof Meaning MeaningProof RefactorSpec Refactor Props14.

Section Body.
Context `{X : Ext}.
Variable w : world.
Variable P : Prop.
Hypothesis HP : P -> forall name f, w_function w name = Some (EFilter f) -> Forall (fun t => forall v, from_value t v = from_value_ref t v) (fl_args f).

Definition cows (c1 c2 : cow) : Prop := c1 = c2 \/ (P /\ cow_val c1 = cow_val c2).
Definition gots (g1 g2 : got) : Prop :=
  match g1, g2 with inl c1, inl c2 => cows c1 c2 | inr a, inr b => a = b | _, _ => False end.
Lemma gots_refl g : gots g g.
Proof. destruct g; cbn; [now left|reflexivity]. Qed.
Lemma cows_val c1 c2 : cows c1 c2 -> cow_val c1 = cow_val c2.
Proof. intros [->|(_ & H)]; auto. Qed.
Lemma got_of_alike o1 o2 f : o1 = o2 \/ P -> gots (got_of o1 f) (got_of o2 f).
Proof.
  intros [->|HP']; [apply gots_refl|]. destruct f; cbn; auto; [|now left]. right. split; [exact HP'|]. now destruct o1, o2.
Qed.
Lemma owns c1 c2 : cows c1 c2 -> is_owned c1 = is_owned c2 \/ P.
Proof. intros [->|(H & _)]; auto. Qed.

Section Ok.
Variable ok : str -> list pstep -> Prop.
Definition okatom (a : patom) : Prop := match a with PVar f r => ok f r | PLit _ => True end.
Definition rel (en1 en2 : env) : Prop := forall f r, ok f r -> gots (m_find en1 f r) (m_find en2 f r).
Lemma rel_push b1 b2 en1 en2 :
  (forall f r, match ask b1 f r, ask b2 f r with None, None => True | Some g1, Some g2 => gots g1 g2 | _, _ => False end) ->
  rel en1 en2 -> rel (b1 :: en1) (b2 :: en2).
Proof.
  intros Hb R f r Hf. cbn [m_find]. specialize (Hb f r). destruct (ask b1 f r), (ask b2 f r); try contradiction; auto.
Qed.
Lemma push_name n c1 c2 en1 en2 : cows c1 c2 -> rel en1 en2 -> rel (BName n c1 :: en1) (BName n c2 :: en2).
Proof.
  intros Hc. apply rel_push. intros f r. cbn [ask]. destruct (str_eqb f n); [|exact I]. rewrite (cows_val _ _ Hc). apply got_of_alike. now apply owns.
Qed.
Lemma push_scope c1 c2 en1 en2 : cows c1 c2 -> rel en1 en2 -> rel (BScope c1 :: en1) (BScope c2 :: en2).
Proof.
  intros Hc. apply rel_push. intros f r. cbn [ask]. rewrite (cows_val _ _ Hc). destruct (cow_val c2); try exact I. destruct (map_get f m); [|exact I]. apply got_of_alike. now apply owns.
Qed.
Lemma item_path_alike o1 o2 x r : o1 = o2 \/ P ->
  match item_path o1 x r, item_path o2 x r with None, None => True | Some g1, Some g2 => gots g1 g2 | _, _ => False end.
Proof.
  intros Ho. unfold item_path. destruct (follow x r) as [v| |s]; [|exact I|reflexivity]. now apply got_of_alike.
Qed.
Lemma push_item n o1 o2 x i rem en1 en2 : o1 = o2 \/ P -> rel en1 en2 -> rel (BItem n o1 x i rem :: en1) (BItem n o2 x i rem :: en2).
Proof.
  intros Ho. apply rel_push. intros f r. cbn [ask]. destruct (str_eqb f (s2b "loop")); [apply gots_refl|]. destruct (str_eqb f n); [|exact I]. now apply item_path_alike.
Qed.
Lemma push_entry kn vn o1 o2 k x i rem en1 en2 : o1 = o2 \/ P -> rel en1 en2 -> rel (BEntry kn vn o1 k x i rem :: en1) (BEntry kn vn o2 k x i rem :: en2).
Proof.
  intros Ho. apply rel_push. intros f r. cbn [ask]. destruct (str_eqb f (s2b "loop")); [apply gots_refl|]. destruct (str_eqb f kn); [apply gots_refl|].
  destruct (str_eqb f vn); [|exact I]. now apply item_path_alike.
Qed.
Lemma rel_arg name f t a en1 en2 : w_function w name = Some (EFilter f) -> In t (fl_args f) -> rel en1 en2 -> okatom a -> m_arg en1 t a = m_arg en2 t a.
Proof.
  intros Ef Ht R Ha. unfold m_arg. destruct a as [first rest|v]; [|reflexivity]. specialize (R first rest Ha).
  destruct (m_find en1 first rest) as [c1|r1], (m_find en2 first rest) as [c2|r2]; cbn in R; try contradiction; [|now subst].
  destruct R as [->|(HP' & Ev)]; [reflexivity|]. rewrite Ev. pose proof (proj1 (Forall_forall _ _) (HP HP' name f Ef) t Ht (cow_val c2)) as E.
  destruct (is_owned c1), (is_owned c2); rewrite ?E; reflexivity.
Qed.
Lemma rel_args name f en1 en2 l : w_function w name = Some (EFilter f) -> rel en1 en2 -> Forall okatom l ->
  forall tys, (forall t, In t tys -> In t (fl_args f)) -> m_args en1 tys l = m_args en2 tys l.
Proof.
  intros Ef R. induction 1 as [|a l Ha _ IH]; intros [|t tys] Hin; cbn [m_args]; auto.
  rewrite (rel_arg name f t a en1 en2 Ef (Hin t (or_introl eq_refl)) R Ha), IH; [reflexivity|]. intros t' Ht'. apply Hin. now right.
Qed.
Lemma rel_call name f en1 en2 v l : w_function w name = Some (EFilter f) -> rel en1 en2 -> Forall okatom l -> m_call en1 f v l = m_call en2 f v l.
Proof. intros Ef R Hl. unfold m_call. now rewrite (rel_args name f en1 en2 l Ef R Hl (fl_args f)) by auto. Qed.
Lemma rel_expr e en1 en2 : rel en1 en2 -> in_expr okatom e ->
  match m_expr w en1 e, m_expr w en2 e with inl c1, inl c2 => cows c1 c2 | inr a, inr b => a = b | _, _ => False end.
Proof.
  intros R. induction e as [[first rest|v]|recv IH name args]; cbn [in_expr okatom m_expr].
  - intros H. specialize (R first rest H). destruct (m_find en1 first rest), (m_find en2 first rest); cbn in R; try contradiction; [exact R|now subst].
  - intros _. now left.
  - intros (F1 & F2). specialize (IH F1). destruct (m_expr w en1 recv) as [c1|t1], (m_expr w en2 recv) as [c2|t2]; try contradiction; [|exact IH].
    rewrite (cows_val _ _ IH). unfold m_apply. destruct (w_function w name) as [[f|f]|] eqn:Ef; try reflexivity.
    rewrite (rel_call name f en1 en2 _ _ Ef R) by (destruct args; auto). destruct (m_call en2 f _ _); [now left|reflexivity].
Qed.
Lemma rel_show e en1 en2 : rel en1 en2 -> in_expr okatom e -> m_show w en1 e = m_show w en2 e.
Proof.
  intros R F. assert (V : forall e, in_expr okatom e -> match m_expr w en1 e with inl c => inl (w_default w, cow_val c) | inr t => inr t end =
    match m_expr w en2 e with inl c => inl (w_default w, cow_val c) | inr t => inr t end).
  { intros e' F'. pose proof (rel_expr e' en1 en2 R F') as K. destruct (m_expr w en1 e'), (m_expr w en2 e'); try contradiction; [now rewrite (cows_val _ _ K)|now rewrite K]. }
  destruct e as [a|recv name [l|]]; [exact (V _ F)|exact (V _ F)|]. cbn [m_show]. destruct F as (F & _). pose proof (rel_expr recv en1 en2 R F) as K.
  destruct (m_expr w en1 recv) as [c1|t1], (m_expr w en2 recv) as [c2|t2]; try contradiction; [|now rewrite K]. rewrite (cows_val _ _ K).
  destruct (w_function w name) as [[f|f]|] eqn:Ef; try reflexivity. now rewrite (rel_call name f en1 en2 _ [] Ef R (Forall_nil _)).
Qed.
End Ok.
Lemma any_atom (ok : str -> list pstep -> Prop) l : (forall f r, ok f r) -> in_block (okatom ok) (fun _ => True) True l.
Proof.
  intros Hok. assert (A : forall a, okatom ok a) by (intros [f r|v]; cbn; auto).
  assert (E : forall e, in_expr (okatom ok) e) by (induction e as [a|recv IH name args]; cbn [in_expr]; [auto|split; [exact IH|destruct args as [l0|]; [apply Forall_forall; auto|exact I]]]).
  assert (K : forall l, Forall (in_stmt (okatom ok) (fun _ => True) True) l -> in_block (okatom ok) (fun _ => True) True l) by (clear l; induction 1; [exact I|split; auto]).
  apply K. apply Forall_forall. intros s _. clear l.
  induction s as [t|e|name arg|neg c thn els IHt IHe|item e b IHb|kn vn e b IHb|e name b IHb] using pstmt_ind'.
  - exact I.
  - apply E.
  - destruct arg; [apply E|exact I].
  - split; [apply E|]. split; [exact (K thn IHt)|]. destruct els as [l|]; [exact (K l IHe)|exact I].
  - split; [exact I|]. split; [apply E|exact (K b IHb)].
  - split; [exact I|]. split; [exact I|]. split; [apply E|exact (K b IHb)].
  - split; [exact I|]. split; [apply E|exact (K b IHb)].
Qed.

(** All templates of the world. *)
Definition library_so (ok : str -> list pstep -> Prop) : Prop :=
  forall asked n b h, w_find w asked n = inl (b, h) -> in_block (okatom ok) (fun _ => True) True b.
Definition block_so ok (l : list pstmt) : Prop := in_block (okatom ok) (fun _ => True) (library_so ok) l.
Lemma library_block ok b asked n h : library_so ok -> w_find w asked n = inl (b, h) -> block_so ok b.
Proof.
  intros L E. pose proof (L asked n b h E) as B. unfold block_so. refine (in_block_both _ _ _ _ _ _ _ _ _ b _ _ _ B B); tauto.
Qed.
Lemma any_block (ok : str -> list pstep -> Prop) l : (forall f r, ok f r) -> block_so ok l.
Proof.
  intros Hok. pose proof (any_atom ok l Hok) as B. unfold block_so. refine (in_block_both _ _ _ _ _ _ _ _ _ l _ _ _ B B); try tauto.
  intros _ _ asked n b h _. now apply any_atom.
Qed.
Definition everything : str -> list pstep -> Prop := fun _ _ => True.
Definition meaning_so (m : meaning) : Prop :=
  forall ok b n en1 en2 h, rel ok en1 en2 -> block_so ok b -> m b n en1 h = m b n en2 h.
Section Stmts.
Variable inc : option meaning.
Hypothesis Hinc : match inc with Some m => meaning_so m | None => True end.
Variable n : option str.
Variable ok : str -> list pstep -> Prop.
Lemma each_so body bs1 bs2 en1 en2 : rel ok en1 en2 ->
  Forall2 (fun b1 b2 => forall en1 en2, rel ok en1 en2 -> rel ok (b1 :: en1) (b2 :: en2)) bs1 bs2 ->
  (forall en1 en2 h, rel ok en1 en2 -> body en1 h = body en2 h :> rt (list str)) -> forall h, m_each body en1 bs1 h = m_each body en2 bs2 h.
Proof.
  intros R H Hb. induction H as [|b1 b2 bs1 bs2 H1 _ IH]; intros h; cbn [m_each]; [reflexivity|]. rewrite (Hb (b1 :: en1) (b2 :: en2)) by auto. apply rbind_ext. exact IH.
Qed.
Lemma items_so item o1 o2 l : o1 = o2 \/ P -> forall i,
  Forall2 (fun b1 b2 => forall en1 en2, rel ok en1 en2 -> rel ok (b1 :: en1) (b2 :: en2)) (item_rounds item o1 i l) (item_rounds item o2 i l).
Proof. intros Ho. induction l as [|x l IH]; intros i; cbn [item_rounds]; constructor; auto. intros en1 en2. now apply push_item. Qed.
Lemma entries_so kn vn o1 o2 l : o1 = o2 \/ P -> forall i,
  Forall2 (fun b1 b2 => forall en1 en2, rel ok en1 en2 -> rel ok (b1 :: en1) (b2 :: en2)) (entry_rounds kn vn o1 i l) (entry_rounds kn vn o2 i l).
Proof. intros Ho. induction l as [|[k x] l IH]; intros i; cbn [entry_rounds]; constructor; auto. intros en1 en2. now apply push_entry. Qed.
Lemma stmt_so : forall s en1 en2 h, rel ok en1 en2 -> in_stmt (okatom ok) (fun _ => True) (library_so ok) s -> m_stmt w inc n s en1 h = m_stmt w inc n s en2 h.
Proof.
  assert (SC : forall l, Forall (fun s => forall en1 en2 h, rel ok en1 en2 -> in_stmt (okatom ok) (fun _ => True) (library_so ok) s -> m_stmt w inc n s en1 h = m_stmt w inc n s en2 h) l ->
    block_so ok l -> forall en1 en2 h, rel ok en1 en2 -> m_scope w inc n l en1 h = m_scope w inc n l en2 h).
  { induction 1 as [|s l Hs _ IH]; intros F en1 en2 h R; cbn [m_scope]; [reflexivity|]. destruct F as (F1 & F2). rewrite (Hs en1 en2) by auto. apply rbind_ext. intros h'. now apply IH. }
  induction s as [t|e|name arg|neg c thn els IHt IHe|item e b IHb|kn vn e b IHb|e name b IHb] using pstmt_ind'; intros en1 en2 h R F.
  - reflexivity.
  - cbn [m_stmt]. now rewrite (rel_show ok e en1 en2 R F).
  - assert (IN : forall ok' en1 en2, rel ok' en1 en2 -> (forall b h', w_find w h name = inl (b, h') -> block_so ok' b) ->
      match w_find w h name with
      | inr r => m_fail n (KRender, r)
      | inl (body, asked) => match inc with None => m_fail None (KRender, s2b "reached maximum include depth (" ++ show_N (w_limit w) ++ s2b ")") | Some meaning => meaning body (Some name) en1 asked end end =
      match w_find w h name with
      | inr r => m_fail n (KRender, r)
      | inl (body, asked) => match inc with None => m_fail None (KRender, s2b "reached maximum include depth (" ++ show_N (w_limit w) ++ s2b ")") | Some meaning => meaning body (Some name) en2 asked end end).
    { intros ok' e1 e2 R' B. destruct (w_find w h name) as [[body h']|r]; [|reflexivity]. destruct inc as [m|]; [|reflexivity]. exact (Hinc ok' body (Some name) e1 e2 h' R' (B _ _ eq_refl)). }
    cbn [m_stmt]. destruct arg as [e|].
    + pose proof (rel_expr ok e en1 en2 R F) as K. destruct (m_expr w en1 e) as [c1|t1], (m_expr w en2 e) as [c2|t2]; try contradiction; [|now rewrite K].
      apply (IN everything); [|intros; now apply any_block]. apply push_scope; [exact K|]. intros f r _. reflexivity.
    + apply (IN ok); [exact R|]. intros b h' E. exact (library_block ok b h name h' F E).
  - destruct F as (F1 & F2 & F3). rewrite !m_stmt_if. pose proof (rel_expr ok c en1 en2 R F1) as K.
    destruct (m_expr w en1 c) as [c1|t1], (m_expr w en2 c) as [c2|t2]; try contradiction; [|now rewrite K]. rewrite (cows_val _ _ K).
    destruct (xorb _ _); [now apply SC|]. destruct els as [l|]; [now apply SC|reflexivity].
  - destruct F as (_ & F2 & F3). rewrite !m_stmt_for. pose proof (rel_expr ok e en1 en2 R F2) as K.
    destruct (m_expr w en1 e) as [c1|t1], (m_expr w en2 e) as [c2|t2]; try contradiction; [|now rewrite K]. rewrite (cows_val _ _ K).
    destruct (cow_val c2); try reflexivity. apply each_so; [exact R|apply items_so; now apply owns|]. intros e1 e2 h' R'. now apply SC.
  - destruct F as (_ & _ & F2 & F3). rewrite !m_stmt_entries. pose proof (rel_expr ok e en1 en2 R F2) as K.
    destruct (m_expr w en1 e) as [c1|t1], (m_expr w en2 e) as [c2|t2]; try contradiction; [|now rewrite K]. rewrite (cows_val _ _ K).
    destruct (cow_val c2); try reflexivity. apply each_so; [exact R|apply entries_so; now apply owns|]. intros e1 e2 h' R'. now apply SC.
  - destruct F as (_ & F2 & F3). rewrite !m_stmt_with. pose proof (rel_expr ok e en1 en2 R F2) as K.
    destruct (m_expr w en1 e) as [c1|t1], (m_expr w en2 e) as [c2|t2]; try contradiction; [|now rewrite K]. apply SC; auto. now apply push_name.
Qed.
Lemma scope_so l : block_so ok l -> forall en1 en2 h, rel ok en1 en2 -> m_scope w inc n l en1 h = m_scope w inc n l en2 h.
Proof.
  induction l as [|s l IH]; intros F en1 en2 h R; cbn [m_scope]; [reflexivity|]. destruct F as (F1 & F2). rewrite (stmt_so s en1 en2 h R F1). apply rbind_ext. intros h'. now apply IH.
Qed.
End Stmts.
Lemma template_so d : meaning_so (m_template w d).
Proof.
  induction d as [|d IH]; intros ok b n en1 en2 h R B; cbn [m_template].
  - now apply (scope_so None I n ok).
  - now apply (scope_so (Some (m_template w d)) IH n ok).
Qed.
End Body.
