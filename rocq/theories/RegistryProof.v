From Verif Require Import Base Utf8 Ext Errors Syntax AhoCorasick SearchSpec SyntaxSpec Value Ast Lexer LexSpec Wp
  GrammarSpec Parser AstOk Compiler CompileProof ParseMain Fmt Stack Filters Render Engine EngineSpec CompileFacts
  RenderSpec RenderProof RenderErr MapFacts RenderMain RegistrySpec.

(** Sorted association lists are determined by what they hold. *)
Lemma sorted_absent {V} k (m : list (str * V)) : sorted_keys m -> match m with (k', _) :: _ => str_cmp k k' = Lt | [] => True end -> map_get k m = None.
Proof.
  destruct m as [|[k' v'] m]; intros Hs Hk; [reflexivity|].
  apply (sorted_get_none k v'). cbn [sorted_keys]. split; [exact Hk|exact Hs].
Qed.
Lemma sorted_ext {V} (m m' : list (str * V)) : sorted_keys m -> sorted_keys m' -> (forall k, map_get k m = map_get k m') -> m = m'.
Proof.
  revert m'. induction m as [|[k v] m IH]; intros [|[k' v'] m'] Hs Hs' H; auto.
  - specialize (H k'). cbn [map_get] in H. rewrite str_eqb_refl in H. discriminate H.
  - specialize (H k). cbn [map_get] in H. rewrite str_eqb_refl in H. discriminate H.
  - assert (E : k = k').
    { destruct (str_cmp k k') eqn:C.
      - now apply str_cmp_eq.
      - pose proof (sorted_absent k ((k', v') :: m') Hs' C) as N. rewrite <- (H k) in N. cbn [map_get] in N. rewrite str_eqb_refl in N. discriminate N.
      - rewrite str_cmp_antisym in C. destruct (str_cmp k' k) eqn:C2; try discriminate C.
        pose proof (sorted_absent k' ((k, v) :: m) Hs C2) as N. rewrite (H k') in N. cbn [map_get] in N. rewrite str_eqb_refl in N. discriminate N. }
    subst k'. pose proof (H k) as Hk. cbn [map_get] in Hk. rewrite str_eqb_refl in Hk. injection Hk as ->. f_equal.
    apply IH; [now apply sorted_tail in Hs|now apply sorted_tail in Hs'|].
    intros k1. destruct (str_eqb k1 k) eqn:E1.
    + apply str_eqb_eq in E1 as ->. rewrite (sorted_get_none k _ _ Hs), (sorted_get_none k _ _ Hs'). reflexivity.
    + specialize (H k1). cbn [map_get] in H. rewrite E1 in H. exact H.
Qed.

Section RegistryProof.
Context `{X : Ext}.
Definition tidy (e : engine) : Prop := sorted_keys (en_functions e) /\ sorted_keys (en_templates e).
Lemma kind_same f : discriminant f = kind_of f.
Proof. reflexivity. Qed.
Lemma get_put_insert {V} n (v : V) m k : map_get k (map_insert n v m) = put n (Some v) (fun k => map_get k m) k.
Proof.
  unfold put. destruct (str_eqb k n) eqn:E.
  - apply str_eqb_eq in E as ->. apply map_get_insert_same.
  - apply map_get_insert_other. intros ->. now rewrite str_eqb_refl in E.
Qed.
Lemma get_put_remove {V} n (m : list (str * V)) k : sorted_keys m -> map_get k (map_remove n m) = put n None (fun k => map_get k m) k.
Proof.
  intros Hs. unfold put. destruct (str_eqb k n) eqn:E.
  - apply str_eqb_eq in E as ->. now apply map_get_remove_same.
  - apply map_get_remove_other. intros ->. now rewrite str_eqb_refl in E.
Qed.
Lemma put_ext {V} n (o : option V) m m' k : (forall k, m k = m' k) -> put n o m k = put n o m' k.
Proof. intros H. unfold put. destruct (str_eqb k n); auto. Qed.
Variable comp : str -> res template.
Definition made (e : engine) : Prop := forall s, engine_compile s e = comp s.
Hypothesis Hcomp : forall s e, comp s = Err e -> e_name e = None.
Lemma call_expect o e s : made e -> tidy e -> holds e s ->
  let '(e', r) := call o e in let '(s', r') := expect comp o s in r = r' /\ made e' /\ tidy e' /\ holds e' s'.
Proof.
  intros Hm Ht Hh. pose proof Ht as (T1 & T2). pose proof Hh as [H1 H2 H3 H4].
  destruct o as [n f|n f|n|n t|n|n|n|t|f|n]; cbn [call expect].
  - unfold add_formatter. rewrite (H1 n). split; [reflexivity|]. split; [exact Hm|]. split; [split; [now apply sorted_keys_insert|exact T2]|].
    constructor; cbn [en_functions en_templates en_default_formatter en_max_include_depth set_functions rg_functions rg_templates rg_default rg_depth]; auto.
    intros k. rewrite get_put_insert. now apply put_ext.
  - unfold add_filter. rewrite (H1 n). split; [reflexivity|]. split; [exact Hm|]. split; [split; [now apply sorted_keys_insert|exact T2]|].
    constructor; cbn [en_functions en_templates en_default_formatter en_max_include_depth set_functions rg_functions rg_templates rg_default rg_depth]; auto.
    intros k. rewrite get_put_insert. now apply put_ext.
  - unfold remove_function. rewrite (H1 n). split; [reflexivity|]. split; [exact Hm|]. split; [split; [now apply sorted_remove|exact T2]|].
    constructor; cbn [en_functions en_templates en_default_formatter en_max_include_depth set_functions rg_functions rg_templates rg_default rg_depth]; auto.
    intros k. rewrite get_put_remove by exact T1. now apply put_ext.
  - unfold add_template. rewrite (Hm t). pose proof (Hcomp t) as Hc. destruct (comp t) as [x|err| |]; auto.
    + split; [reflexivity|]. split; [exact Hm|]. split; [split; [exact T1|now apply sorted_keys_insert]|].
      constructor; cbn [en_functions en_templates en_default_formatter en_max_include_depth set_templates rg_functions rg_templates rg_default rg_depth]; auto.
      intros k. rewrite get_put_insert. now apply put_ext.
    + split; [|auto]. unfold with_template_name. rewrite (Hc err eq_refl). reflexivity.
  - unfold engine_get_template. rewrite (H2 n). split; [|auto]. now destruct (rg_templates s n).
  - unfold engine_template, engine_get_template. rewrite (H2 n). split; [|auto]. now destruct (rg_templates s n).
  - unfold remove_template. rewrite (H2 n). split; [reflexivity|]. split; [exact Hm|]. split; [split; [exact T1|now apply sorted_remove]|].
    constructor; cbn [en_functions en_templates en_default_formatter en_max_include_depth set_templates rg_functions rg_templates rg_default rg_depth]; auto.
    intros k. rewrite get_put_remove by exact T2. now apply put_ext.
  - rewrite (Hm t). auto.
  - split; [reflexivity|]. split; [exact Hm|]. split; [exact Ht|]. constructor; auto.
  - split; [reflexivity|]. split; [exact Hm|]. split; [exact Ht|]. constructor; auto.
Qed.
Lemma call_expect_all l : forall e s, made e -> tidy e -> holds e s ->
  let '(e', r) := call_all l e in let '(s', r') := expect_all comp l s in r = r' /\ made e' /\ tidy e' /\ holds e' s'.
Proof.
  induction l as [|o l IH]; intros e s Hm Ht Hh; cbn [call_all expect_all]; [auto|].
  pose proof (call_expect o e s Hm Ht Hh) as K. destruct (call o e) as [e1 r1], (expect comp o s) as [s1 r1']. destruct K as (-> & M1 & T1 & K1).
  specialize (IH e1 s1 M1 T1 K1). destruct (call_all l e1) as [e2 r2], (expect_all comp l s1) as [s2 r2']. destruct IH as (-> & M2 & T2 & K2). auto.
Qed.
Lemma holds_fun e e' s : tidy e -> tidy e' -> en_searcher e = en_searcher e' -> holds e s -> holds e' s -> e = e'.
Proof.
  intros (T1 & T2) (T1' & T2') Es [H1 H2 H3 H4] [H1' H2' H3' H4']. destruct e as [a b c d g], e' as [a' b' c' d' g']; cbn in *.
  f_equal; try congruence; apply sorted_ext; auto; intros k; congruence.
Qed.
End RegistryProof.
