(** C65: the program that generates src/filters/impls.rs. *)
From Coq Require Import FinFun.
From Verif Require Import Base Utf8 Ext Errors Value Ast Fmt Stack Filters FilterImpls GenFilters.

Lemma forall2_length {A B} (R : A -> B -> Prop) l m : Forall2 R l m -> length l = length m.
Proof. induction 1; cbn; congruence. Qed.
Lemma cartesian_in {A} (ls : list (list A)) : forall ts, In ts (cartesian ls) <-> Forall2 (fun t l => In t l) ts ls.
Proof.
  induction ls as [|l ls IH]; intros ts; cbn [cartesian].
  - split; [intros [<-|[]]; constructor|intros H; inversion H; now left].
  - rewrite in_flat_map. split.
    + intros (a & Ha & H). apply in_map_iff in H as (x & <- & Hx). constructor; [exact Ha|now apply IH].
    + intros H. inversion H as [|t l' ts' ls' H1 H2]; subst. exists t. split; [exact H1|]. apply in_map. now apply IH.
Qed.
Lemma nodup_flat_map {A B} (f : A -> list B) l : NoDup l -> (forall a, In a l -> NoDup (f a)) -> (forall a a' b, In a l -> In a' l -> In b (f a) -> In b (f a') -> a = a') -> NoDup (flat_map f l).
Proof.
  induction 1 as [|a l Ha Hl IH]; intros Hf Hd; cbn; [constructor|].
  assert (N : NoDup (flat_map f l)) by (apply IH; [intros b Hb; apply Hf; now right|intros x y b Hx Hy; apply Hd; now right]).
  assert (D : forall b, In b (f a) -> ~ In b (flat_map f l)).
  { intros b Hb K. apply in_flat_map in K as (a' & Ha' & K). assert (a = a') by (apply (Hd a a' b); auto; [now left|now right]). subst a'. now apply Ha. }
  assert (Na : NoDup (f a)) by (apply Hf; now left). induction (f a) as [|b m IHm]; cbn; [exact N|]. inversion Na; subst. constructor.
  - rewrite in_app_iff. intros [K|K]; [now apply H1|]. exact (D b (or_introl eq_refl) K).
  - apply IHm; [intros c Hc; apply D; now right|assumption].
Qed.
Lemma cartesian_nodup {A} (ls : list (list A)) : Forall (@NoDup A) ls -> NoDup (cartesian ls).
Proof.
  induction 1 as [|l ls Hl _ IH]; cbn [cartesian]; [constructor; [intros []|constructor]|].
  apply nodup_flat_map; [exact Hl| |].
  - intros a _. apply Injective_map_NoDup; [|exact IH]. intros x y E. now injection E.
  - intros a a' b _ _ H H'. apply in_map_iff in H as (x & <- & _). apply in_map_iff in H' as (y & E & _). now injection E.
Qed.

(** C65.  Whatever the tables of parameter types are: the program generates one impl for every
    choice of types for the first one, two, ... parameters that has a reference in it, and no
    impl twice. *)
Theorem C65_choices (all : list (list arg_type)) ts :
  In ts (gen_types all) <->
  ts <> [] /\ (exists chosen others, all = chosen ++ others /\ Forall2 (fun t l => In t l) ts chosen) /\ exists t, In t ts /\ t <> AOwned.
Proof.
  unfold gen_types. rewrite filter_In, in_flat_map, negb_true_iff.
  assert (O : forallb is_owned_type ts = false <-> exists t, In t ts /\ t <> AOwned).
  { rewrite <- Bool.not_true_iff_false, forallb_forall. split.
    - induction ts as [|t ts IH]; intros H; [destruct H; intros ? []|]. destruct (arg_type_eq_dec t AOwned) as [->|N]; [|exists t; split; [now left|exact N]].
      destruct IH as (u & Hu & Nu); [|exists u; split; [now right|exact Nu]]. intros K. apply H. intros x [<-|Hx]; [reflexivity|auto].
    - intros (t & Ht & N) H. apply H in Ht. destruct t; [now apply N|discriminate..]. }
  rewrite O. split.
  - intros ((i & Hi & H) & E). apply in_seq in Hi. apply cartesian_in in H. split; [|split; [|exact E]].
    + intros ->. destruct E as (t & [] & _).
    + exists (firstn i all), (skipn i all). split; [symmetry; apply firstn_skipn|exact H].
  - intros (Hn & (c & o & -> & H) & E). split; [|exact E]. exists (length c). split.
    + apply in_seq. rewrite app_length. destruct H as [|? ? ? ? _ H]; [now destruct Hn|]. cbn [length]. lia.
    + rewrite firstn_app, firstn_all, Nat.sub_diag, app_nil_r. now apply cartesian_in.
Qed.
Theorem C65_once (all : list (list arg_type)) : Forall (@NoDup arg_type) all -> NoDup (gen_types all).
Proof.
  intros H. unfold gen_types. apply NoDup_filter. apply nodup_flat_map; [apply seq_NoDup| |].
  - intros i _. apply cartesian_nodup. apply Forall_forall. intros l Hl. rewrite Forall_forall in H. apply H. rewrite <- (firstn_skipn i all). apply in_or_app. now left.
  - intros i j ts Hi Hj Ei Ej. apply in_seq in Hi, Hj. apply cartesian_in in Ei, Ej. apply forall2_length in Ei, Ej. rewrite firstn_length in Ei, Ej. lia.
Qed.
(** C65.  With the tables it has, it generates what is in src/filters/impls.rs, in that order;
    the impls written by hand are those it leaves out. *)
Theorem C65_generated :
  gen = skipn 5 impls /\ length (skipn 5 impls) = 150 /\
  firstn 5 impls = map (fun n => impl_for (repeat AOwned n)) [1; 2; 3; 4; 5].
Proof. vm_compute. split; [|split]; reflexivity. Qed.
(** C65.  So every choice of one to five parameter types, each owned or a reference that is
    allowed there, has an impl in the crate. *)
Theorem C65_every_choice ts : ts <> [] -> (exists others, exists chosen, all_types = chosen ++ others /\ Forall2 (fun t l => In t l) ts chosen) ->
  In (impl_for ts) impls.
Proof.
  intros Hn (o & c & E & F). rewrite <- (firstn_skipn 5 impls). apply in_or_app. destruct C65_generated as (G & _ & O). rewrite <- G, O.
  destruct (forallb is_owned_type ts) eqn:A.
  - left. apply in_map_iff. exists (length ts). assert (Es : ts = repeat AOwned (length ts)).
    { clear - A. induction ts as [|t ts IH]; [reflexivity|]. cbn in A |- *. apply andb_prop in A as [A1 A2]. destruct t; try discriminate. f_equal. auto. }
    split; [now rewrite <- Es|]. apply forall2_length in F. assert (L : length c <= 5) by (apply (f_equal (@length _)) in E; rewrite app_length in E; cbn in E; lia).
    destruct ts as [|t1 [|t2 [|t3 [|t4 [|t5 [|t6 ts]]]]]]; cbn [length In] in *; try tauto; lia.
  - right. unfold gen. apply in_map. apply C65_choices. split; [exact Hn|]. split; [eauto|].
    clear - A.
    induction ts as [|t ts IH]; [discriminate|]. cbn in A. destruct (arg_type_eq_dec t AOwned) as [->|N]; [|exists t; split; [now left|exact N]].
    destruct (IH A) as (u & Hu & Nu). exists u. split; [now right|exact Nu].
Qed.
Print Assumptions C65_choices.
Print Assumptions C65_once.
Print Assumptions C65_generated.
Print Assumptions C65_every_choice.

(** A concrete case: a filter of three parameters, the first a list. *)
Example a_choice : In [AListRef; AOwned; AStr] (gen_types all_types) /\ Forall (@NoDup arg_type) all_types /\ length (gen_types all_types) = 150.
Proof.
  split; [|split; [|vm_compute; reflexivity]].
  - apply C65_choices. split; [discriminate|]. split; [|exists AListRef; split; [now left|discriminate]].
    exists [value_types; arg_types; arg_types], [arg_types; arg_types]. split; [reflexivity|]. repeat (apply Forall2_cons; [cbn; tauto|]). constructor.
  - unfold all_types, value_types, arg_types. repeat constructor; cbn; intuition discriminate.
Qed.
(** With one more table the program would serve six parameters. *)
Example one_more : In [AOwned; AOwned; AOwned; AOwned; AOwned; AStr] (gen_types (all_types ++ [arg_types])).
Proof.
  apply C65_choices. split; [discriminate|]. split; [|exists AStr; split; [do 5 right; now left|discriminate]].
  exists (all_types ++ [arg_types]), []. split; [now rewrite app_nil_r|]. cbn [all_types app]. unfold value_types, arg_types. repeat (apply Forall2_cons; [cbn; tauto|]). constructor.
Qed.
