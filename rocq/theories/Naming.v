(** The name of the rendered template is seen in errors only (C50). *)
From Verif Require Import Base Utf8 Ext Errors Value Ast Fmt Stack Filters Render Engine NameSpec.

Inductive twin {A} (n1 n2 : option str) (R : A -> A -> Prop) : rt A -> rt A -> Prop :=
| tw_ok a b : R a b -> twin n1 n2 R (RRet (Ok a)) (RRet (Ok b))
| tw_err e1 e2 : e1 = e2 \/ renamed n1 n2 e1 e2 -> twin n1 n2 R (RRet (Err e1)) (RRet (Err e2))
| tw_panic : twin n1 n2 R (RRet Panic) (RRet Panic)
| tw_fuel : twin n1 n2 R (RRet OutOfFuel) (RRet OutOfFuel)
| tw_write s o1 o2 x1 x2 : twin n1 n2 R o1 o2 -> twin n1 n2 R x1 x2 -> twin n1 n2 R (RWrite s o1 x1) (RWrite s o2 x2).

Section Naming.
Variables n1 n2 : option str.
Notation twin := (twin n1 n2).
Lemma twin_refl {A} (R : A -> A -> Prop) x : (forall a, R a a) -> twin R x x.
Proof. intros HR. induction x as [[]|]; constructor; auto. Qed.
Lemma twin_bind {A B} (R : A -> A -> Prop) (Q : B -> B -> Prop) x y f g :
  twin R x y -> (forall a b, R a b -> twin Q (f a) (g b)) -> twin Q (rbind x f) (rbind y g).
Proof. induction 1; intros Hf; cbn; auto; constructor; auto. Qed.
Lemma twin_root {A} (x : rt A) : twin eq (name_err n1 x) (name_err n2 x).
Proof.
  unfold name_err. induction x as [[a|e| |]|s o IHo x IHx]; cbn; constructor; auto.
  destruct e as [k [nm|] r p]; [left; destruct n1, n2; reflexivity|].
  right. destruct n1, n2; cbn; constructor; cbn; auto.
Qed.

Context `{X : Ext}.
Variable inner : renderer_inner.
(** The stacks of activations: the last one is the root. *)
Inductive same_but_root : list activation -> list activation -> Prop :=
| sb_nil : same_but_root [] []
| sb_root t pc b : same_but_root [mkact t n1 pc b] [mkact t n2 pc b]
| sb_cons a l1 l2 : same_but_root l1 l2 -> same_but_root (a :: l1) (a :: l2).
Lemma sb_length l1 l2 : same_but_root l1 l2 -> length l1 = length l2.
Proof. induction 1; cbn; auto. Qed.

Lemma loop_twin fuel : forall ts1 ts2 st hist, same_but_root ts1 ts2 ->
  twin eq (render_loop (called n1 inner) fuel ts1 st hist) (render_loop (called n2 inner) fuel ts2 st hist).
Proof.
  induction fuel as [|fuel IH]; intros ts1 ts2 st hist H.
  - destruct H; cbn; constructor; auto.
  - assert (K : forall tname1 tname2 t pc hs rest1 rest2,
      (tname1 = tname2 /\ same_but_root rest1 rest2 \/ tname1 = n1 /\ tname2 = n2 /\ rest1 = [] /\ rest2 = []) ->
      twin eq (render_loop (called n1 inner) (S fuel) (mkact t tname1 pc hs :: rest1) st hist)
              (render_loop (called n2 inner) (S fuel) (mkact t tname2 pc hs :: rest2) st hist)).
    { intros tname1 tname2 t pc hs rest1 rest2 HH.
      assert (NE : forall A (x : rt A), twin eq (name_err tname1 x) (name_err tname2 x)).
      { intros A x. destruct HH as [(-> & _)|(-> & -> & _)]; [apply twin_refl; reflexivity|apply twin_root]. }
      assert (SB : forall pc', same_but_root (mkact t tname1 pc' hs :: rest1) (mkact t tname2 pc' hs :: rest2)).
      { intros pc'. destruct HH as [(-> & HH)|(-> & -> & -> & ->)]; [now apply sb_cons|apply sb_root]. }
      assert (RS : same_but_root rest1 rest2) by (destruct HH as [(_ & HH)|(_ & _ & -> & ->)]; [exact HH|apply sb_nil]).
      cbn [render_loop ac_template ac_name ac_pc ac_has_scope].
      eapply twin_bind; [apply (NE _ (render_one (called n1 inner) fuel t pc st None))|].
      intros [[rs pc'] st'] ? <-.
      eapply twin_bind with (R := fun a b => same_but_root (fst (fst a)) (fst (fst b)) /\ snd (fst a) = snd (fst b) /\ snd a = snd b).
      { destruct rs as [|nm|nm g].
        - destruct hs.
          + eapply twin_bind; [apply twin_refl with (R := eq); reflexivity|]. intros st2 ? <-.
            eapply twin_bind; [apply twin_refl with (R := eq); reflexivity|]. intros st3 ? <-. constructor. cbn. auto.
          + constructor. cbn. auto.
        - eapply twin_bind; [apply (NE _ (lift (get_template (called n1 inner) (t_source t) nm hist)))|].
          intros [t' hist'] ? <-. constructor. cbn. split; [apply sb_cons, SB|auto].
        - eapply twin_bind; [apply (NE _ (lift (get_template (called n1 inner) (t_source t) nm hist)))|].
          intros [t' hist'] ? <-. constructor. cbn. split; [apply sb_cons, SB|auto]. }
      intros [[ts st1] hist1] [[ts' st1'] hist1'] (S1 & S2 & S3). cbn in S1, S2, S3. subst st1' hist1'.
      rewrite (sb_length _ _ S1). change (max_include_depth (called n2 inner)) with (max_include_depth (called n1 inner)).
      destruct (_ <? _)%N; [apply twin_refl; reflexivity|]. apply IH. exact S1. }
    destruct H as [|t pc b|a l1 l2 H]; [cbn; constructor; reflexivity| |]; [apply K; auto|].
    destruct a as [t nm pc hs]. apply K. auto.
Qed.
Lemma render_twin fuel st : twin eq (render (called n1 inner) fuel st) (render (called n2 inner) fuel st).
Proof. apply loop_twin. apply sb_root. Qed.

Lemma twin_run {A} (x y : rt A) k : twin eq x y -> forall w err,
  fst (run k w err x) = fst (run k w err y) /\ same_up_to_name n1 n2 (snd (run k w err x)) (snd (run k w err y)).
Proof.
  induction 1 as [a b ->|e1 e2 [->|He]| | |s o1 o2 x1 x2 _ IHo _ IHx]; intros w err; cbn [run].
  1-5: split; [reflexivity|cbn; constructor; auto].
  destruct (sk_write k w s) as [w' [c|]]; auto.
Qed.
Lemma twin_run_string {A} (x y : rt A) : twin eq x y -> forall buf,
  fst (run_string buf x) = fst (run_string buf y) /\ same_up_to_name n1 n2 (snd (run_string buf x)) (snd (run_string buf y)).
Proof.
  induction 1 as [a b ->|e1 e2 [->|He]| | |s o1 o2 x1 x2 _ IHo _ IHx]; intros buf; cbn [run_string].
  1-5: split; [reflexivity|cbn; constructor; auto].
  apply IHo.
Qed.
Lemma to_string_twin fuel g : same_up_to_name n1 n2 (to_string fuel (called n1 inner) g) (to_string fuel (called n2 inner) g).
Proof.
  unfold to_string. destruct (initial_stack g) as [st| | |]; cbn; try constructor.
  pose proof (twin_run_string _ _ (render_twin fuel st) []) as (H1 & H2).
  destruct (run_string [] (render (called n1 inner) fuel st)) as [s1 r1], (run_string [] (render (called n2 inner) fuel st)) as [s2 r2].
  cbn in H1, H2. subst s2. destruct H2 as [r|e1 e2 He]; [constructor|now apply su_err].
Qed.
Lemma to_writer_twin fuel g k w : fst (to_writer fuel (called n1 inner) g k w) = fst (to_writer fuel (called n2 inner) g k w) /\
  same_up_to_name n1 n2 (snd (to_writer fuel (called n1 inner) g k w)) (snd (to_writer fuel (called n2 inner) g k w)).
Proof.
  unfold to_writer. destruct (initial_stack g) as [st| | |]; try (split; [reflexivity|constructor]).
  pose proof (twin_run _ _ k (render_twin fuel st) w None) as (H1 & H2).
  destruct (run k w None (render (called n1 inner) fuel st)) as [[w1 c1] r1], (run k w None (render (called n2 inner) fuel st)) as [[w2 c2] r2].
  cbn in H1, H2. injection H1 as <- <-. destruct H2 as [r|e1 e2 He].
  - split; [reflexivity|constructor].
  - destruct c1; cbn; split; [reflexivity|constructor|reflexivity|now apply su_err].
Qed.
End Naming.
