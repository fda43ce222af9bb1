(** The laws of RefactorSpec.v hold of the meaning of templates. *)
From Verif Require Import Base Ext Errors Value Ast Fmt Stack Filters Render RenderProof Meaning MeaningProof DepthProof RefactorSpec Props14.

(** ** The same string *)
Definition seen {A} (p : str * res A) : res (str * A) :=
  match p with (b, Ok a) => Ok (b, a) | (_, Err e) => Err e | (_, Panic) => Panic | (_, OutOfFuel) => OutOfFuel end.
Definition same {A} (x y : rt A) : Prop := forall buf, seen (run_string buf x) = seen (run_string buf y).
Lemma same_refl {A} (x : rt A) : same x x.
Proof. now intros buf. Qed.
Lemma same_sym {A} (x y : rt A) : same x y -> same y x.
Proof. now intros H buf. Qed.
Lemma same_trans {A} (x y z : rt A) : same x y -> same y z -> same x z.
Proof. intros H1 H2 buf. now rewrite H1. Qed.
Lemma same_bind {A B} (x y : rt A) (f g : A -> rt B) : same x y -> (forall a, same (f a) (g a)) -> same (rbind x f) (rbind y g).
Proof.
  intros H Hf buf. rewrite !run_string_bind. specialize (H buf).
  destruct (run_string buf x) as [b [a|e| |]], (run_string buf y) as [b' [a'|e'| |]]; cbn in H |- *; try discriminate H; try reflexivity.
  - injection H as -> ->. apply Hf.
  - now injection H as ->.
Qed.

Section Facts.
Context `{X : Ext}.

(** ** Names *)
Section Names.
Variable w : world.
Variables x y : str.
Variable use : list pstep -> Prop.   (* the paths by which [x] is used *)
(** [en2] has under [y] what [en1] has under [x], and the rest alike. *)
Inductive moved : env -> env -> Prop :=
| mv_here en1 en2 :
    (forall z rest, z <> x -> z <> y -> m_find en1 z rest = m_find en2 z rest) ->
    (forall rest, use rest -> m_find en1 x rest = m_find en2 y rest) -> moved en1 en2
| mv_in b en1 en2 : (forall rest, use rest -> ask b x rest = None /\ ask b y rest = None) -> moved en1 en2 -> moved (b :: en1) (b :: en2).
Lemma moved_find en1 en2 : moved en1 en2 ->
  (forall z rest, z <> x -> z <> y -> m_find en1 z rest = m_find en2 z rest) /\
  (forall rest, use rest -> m_find en1 x rest = m_find en2 y rest).
Proof.
  induction 1 as [en1 en2 H1 H2|b en1 en2 Hb _ (IH1 & IH2)]; [auto|]. split.
  - intros z rest Hx Hy. cbn [m_find]. destruct (ask b z rest); auto.
  - intros rest Hu. cbn [m_find]. destruct (Hb rest Hu) as (-> & ->). auto.
Qed.
(** What an atom may be. *)
Definition fits (a : patom) : Prop := match a with PVar first rest => (first = x -> use rest) /\ (first = y -> x = y) | PLit _ => True end.
Lemma fits_find en1 en2 first rest : moved en1 en2 -> fits (PVar first rest) ->
  m_find en1 first rest = m_find en2 (if str_eqb first x then y else first) rest.
Proof.
  intros M (F1 & F2). destruct (moved_find _ _ M) as (M1 & M2). destruct (str_eqb first x) eqn:E.
  - apply str_eqb_eq in E as ->. auto.
  - apply M1; intros ->.
    + rewrite (proj2 (str_eqb_eq x x) eq_refl) in E. discriminate E.
    + rewrite F2 in E by reflexivity. rewrite (proj2 (str_eqb_eq y y) eq_refl) in E. discriminate E.
Qed.
Lemma moved_arg en1 en2 t a : moved en1 en2 -> fits a -> m_arg en1 t a = m_arg en2 t (ren_atom x y a).
Proof. intros M F. unfold m_arg. destruct a as [first rest|v]; cbn [ren_atom]; [|reflexivity]. now rewrite (fits_find _ _ _ _ M F). Qed.
Lemma moved_args en1 en2 l : moved en1 en2 -> Forall fits l -> forall tys, m_args en1 tys l = m_args en2 tys (map (ren_atom x y) l).
Proof.
  intros M. induction 1 as [|a l Ha _ IH]; intros [|t tys]; cbn [m_args map]; auto. rewrite (moved_arg _ _ t a M Ha), IH. reflexivity.
Qed.
Lemma moved_call en1 en2 f v l : moved en1 en2 -> Forall fits l -> m_call en1 f v l = m_call en2 f v (map (ren_atom x y) l).
Proof. intros M F. unfold m_call. rewrite map_length. now rewrite (moved_args _ _ l M F). Qed.
Lemma moved_expr en1 en2 e : moved en1 en2 -> in_expr fits e -> m_expr w en1 e = m_expr w en2 (ren_expr x y e).
Proof.
  intros M. induction e as [a|recv IH name args]; intros F.
  - destruct a as [first rest|v]; cbn [ren_expr ren_atom m_expr]; [|reflexivity]. now rewrite (fits_find _ _ _ _ M F).
  - destruct F as (F1 & F2). cbn [ren_expr m_expr]. rewrite <- (IH F1). destruct (m_expr w en1 recv) as [c|]; [|reflexivity].
    unfold m_apply. destruct (w_function w name) as [[f|f]|]; try reflexivity.
    destruct args as [l|]; cbn [map]; [now rewrite (moved_call _ _ f _ l M F2)|now rewrite (moved_call en1 en2 f _ [] M (Forall_nil _))].
Qed.
Lemma moved_show en1 en2 e : moved en1 en2 -> in_expr fits e -> m_show w en1 e = m_show w en2 (ren_expr x y e).
Proof.
  intros M F. destruct e as [a|recv name [l|]].
  - cbn [ren_expr m_show]. now rewrite (moved_expr _ _ (PAtom a) M F).
  - cbn [ren_expr m_show]. now rewrite (moved_expr _ _ (PCall recv name (Some l)) M F).
  - destruct F as (F & _). cbn [ren_expr m_show]. rewrite (moved_expr _ _ recv M F). destruct (m_expr w en2 _) as [c|]; [|reflexivity].
    destruct (w_function w name) as [[f|f]|]; try reflexivity. now rewrite (moved_call en1 en2 f _ [] M (Forall_nil _)).
Qed.
Variable ok : str -> Prop.
Hypothesis Hok : forall n, ok n -> forall c i rem o v rest k n', ok n' -> use rest ->
  (ask (BName n c) x rest = None /\ ask (BName n c) y rest = None) /\
  (ask (BItem n o v i rem) x rest = None /\ ask (BItem n o v i rem) y rest = None) /\
  (ask (BEntry n n' o k v i rem) x rest = None /\ ask (BEntry n n' o k v i rem) y rest = None).
Variable inc : option meaning.
Variable n : option str.
Lemma moved_each body body' bs : (forall en1 en2 h, moved en1 en2 -> body en1 h = body' en2 h) ->
  Forall (fun b => forall rest, use rest -> ask b x rest = None /\ ask b y rest = None) bs ->
  forall en1 en2 h, moved en1 en2 -> m_each body en1 bs h = m_each body' en2 bs h.
Proof.
  intros Hb. induction 1 as [|b bs Hx _ IH]; intros en1 en2 h M; cbn [m_each]; [reflexivity|].
  rewrite (Hb (b :: en1) (b :: en2)) by (constructor; auto). apply rbind_ext. intros h'. now apply IH.
Qed.
Lemma items_quiet i o l : ok i -> forall k, Forall (fun b => forall rest, use rest -> ask b x rest = None /\ ask b y rest = None) (item_rounds i o k l).
Proof. intros Hi. induction l as [|v l IH]; intros k; cbn [item_rounds]; constructor; auto. intros rest Hu. apply (Hok i Hi (Borrowed VNone) k (length l) o v rest [] i Hi Hu). Qed.
Lemma entries_quiet kn vn o l : ok kn -> ok vn -> forall k, Forall (fun b => forall rest, use rest -> ask b x rest = None /\ ask b y rest = None) (entry_rounds kn vn o k l).
Proof. intros Hk Hv. induction l as [|[kk v] l IH]; intros k; cbn [entry_rounds]; constructor; auto. intros rest Hu. apply (Hok kn Hk (Borrowed VNone) k (length l) o v rest kk vn Hv Hu). Qed.
Lemma moved_stmt : forall s en1 en2 h, moved en1 en2 -> in_stmt fits ok False s -> m_stmt w inc n s en1 h = m_stmt w inc n (ren_stmt x y s) en2 h.
Proof.
  assert (SC : forall l, Forall (fun s => forall en1 en2 h, moved en1 en2 -> in_stmt fits ok False s -> m_stmt w inc n s en1 h = m_stmt w inc n (ren_stmt x y s) en2 h) l ->
    in_block fits ok False l -> forall en1 en2 h, moved en1 en2 -> m_scope w inc n l en1 h = m_scope w inc n (map (ren_stmt x y) l) en2 h).
  { induction 1 as [|s l Hs _ IH]; intros (F1 & F2) en1 en2 h M || intros _ en1 en2 h M; cbn [m_scope map]; [reflexivity|].
    rewrite (Hs en1 en2) by auto. apply rbind_ext. intros h'. now apply IH. }
  induction s as [t|e|name arg|neg c thn els IHt IHe|item e b IHb|kn vn e b IHb|e name b IHb] using pstmt_ind'; intros en1 en2 h M F.
  - reflexivity.
  - cbn [ren_stmt m_stmt]. now rewrite (moved_show _ _ e M F).
  - destruct arg as [e|]; [|destruct F]. cbn [ren_stmt m_stmt]. rewrite (moved_expr _ _ e M F). reflexivity.
  - destruct F as (F1 & F2 & F3). cbn [ren_stmt]. rewrite !m_stmt_if, (moved_expr _ _ c M F1). destruct (m_expr w en2 _) as [v|]; [|reflexivity].
    destruct (xorb _ _); [now apply SC|]. destruct els as [l|]; [now apply SC|reflexivity].
  - destruct F as (F1 & F2 & F3). cbn [ren_stmt]. rewrite !m_stmt_for, (moved_expr _ _ e M F2). destruct (m_expr w en2 _) as [v|]; [|reflexivity].
    destruct (cow_val v); try reflexivity. apply moved_each; [|now apply items_quiet|exact M]. intros e1 e2 h' M'. now apply SC.
  - destruct F as (F1 & F2 & F3 & F4). cbn [ren_stmt]. rewrite !m_stmt_entries, (moved_expr _ _ e M F3). destruct (m_expr w en2 _) as [v|]; [|reflexivity].
    destruct (cow_val v); try reflexivity. apply moved_each; [|now apply entries_quiet|exact M]. intros e1 e2 h' M'. now apply SC.
  - destruct F as (F1 & F2 & F3). cbn [ren_stmt]. rewrite !m_stmt_with, (moved_expr _ _ e M F2). destruct (m_expr w en2 _) as [v|]; [|reflexivity].
    apply SC; auto. constructor; [|exact M]. intros rest Hu. apply (Hok name F1 v 0 0 false VNone rest [] name F1 Hu).
Qed.
Lemma moved_scope l : in_block fits ok False l -> forall en1 en2 h, moved en1 en2 -> m_scope w inc n l en1 h = m_scope w inc n (rename x y l) en2 h.
Proof.
  induction l as [|s l IH]; intros F en1 en2 h M; cbn [m_scope rename map]; [reflexivity|]. destruct F as (F1 & F2).
  rewrite (moved_stmt s en1 en2 h M F1). apply rbind_ext. intros h'. apply IH; auto.
Qed.
End Names.

Lemma in_expr_impl (P Q : patom -> Prop) e : (forall a, P a -> Q a) -> in_expr P e -> in_expr Q e.
Proof.
  intros H. induction e as [a|recv IH name args]; cbn [in_expr]; [apply H|]. intros (F1 & F2). split; [auto|].
  destruct args as [l|]; [|exact I]. eapply Forall_impl; eauto.
Qed.
Lemma in_expr_and (P Q : patom -> Prop) e : in_expr P e -> in_expr Q e -> in_expr (fun a => P a /\ Q a) e.
Proof.
  induction e as [a|recv IH name args]; cbn [in_expr]; [auto|]. intros (F1 & F2) (G1 & G2). split; [auto|].
  destruct args as [l|]; [|exact I]. apply Forall_and; auto.
Qed.
Lemma in_block_both (P Q R : patom -> Prop) (B C D : str -> Prop) (S T U : Prop) l :
  (forall a, P a -> Q a -> R a) -> (forall n, B n -> C n -> D n) -> (S -> T -> U) ->
  in_block P B S l -> in_block Q C T l -> in_block R D U l.
Proof.
  intros HP HB HS.
  assert (E : forall e, in_expr P e -> in_expr Q e -> in_expr R e).
  { intros e F G. apply (in_expr_impl (fun a => P a /\ Q a)); [intros a (? & ?); auto|now apply in_expr_and]. }
  assert (K : forall l, Forall (fun s => in_stmt P B S s -> in_stmt Q C T s -> in_stmt R D U s) l ->
    in_block P B S l -> in_block Q C T l -> in_block R D U l).
  { clear l. induction 1 as [|s l Hs _ IH]; [auto|]. intros (F1 & F2) (G1 & G2). split; auto. }
  apply K. apply Forall_forall. intros s _. clear l.
  induction s as [t|e|name arg|neg c thn els IHt IHe|item e b IHb|kn vn e b IHb|e name b IHb] using pstmt_ind'.
  - auto.
  - apply E.
  - destruct arg as [e|]; [apply E|exact HS].
  - intros (F1 & F2 & F3) (G1 & G2 & G3). split; [auto|]. split; [exact (K thn IHt F2 G2)|]. destruct els as [l|]; [exact (K l IHe F3 G3)|exact I].
  - intros (F1 & F2 & F3) (G1 & G2 & G3). split; [auto|]. split; [auto|exact (K b IHb F3 G3)].
  - intros (F1 & F2 & F3 & F4) (G1 & G2 & G3 & G4). split; [auto|]. split; [auto|]. split; [auto|exact (K b IHb F4 G4)].
  - intros (F1 & F2 & F3) (G1 & G2 & G3). split; [auto|]. split; [auto|exact (K b IHb F3 G3)].
Qed.
Lemma rename_same x l : rename x x l = l.
Proof.
  assert (A : forall a, ren_atom x x a = a).
  { intros [first rest|v]; [|reflexivity]. cbn. destruct (str_eqb first x) eqn:E; [apply str_eqb_eq in E as ->|]; reflexivity. }
  assert (E : forall e, ren_expr x x e = e).
  { induction e as [a|recv IH name args]; cbn [ren_expr]; [now rewrite A|]. rewrite IH. destruct args as [l0|]; [|reflexivity]. f_equal. f_equal.
    induction l0 as [|a l0 IHl]; cbn [map]; [reflexivity|]. now rewrite A, IHl. }
  assert (K : forall l, Forall (fun s => ren_stmt x x s = s) l -> map (ren_stmt x x) l = l).
  { induction 1 as [|s l0 Hs _ IH]; cbn [map]; [reflexivity|]. now rewrite Hs, IH. }
  apply K. apply Forall_forall. intros s _. clear l.
  induction s as [t|e|name arg|neg c thn els IHt IHe|item e b IHb|kn vn e b IHb|e name b IHb] using pstmt_ind'; cbn [ren_stmt]; rewrite ?E.
  - reflexivity.
  - reflexivity.
  - destruct arg as [e|]; rewrite ?E; reflexivity.
  - rewrite (K thn IHt). destruct els as [l|]; [now rewrite (K l IHe)|reflexivity].
  - now rewrite (K b IHb).
  - now rewrite (K b IHb).
  - now rewrite (K b IHb).
Qed.
Lemma eqb_refl s : str_eqb s s = true.
Proof. now apply str_eqb_eq. Qed.
Lemma eqb_neq s t : s <> t -> str_eqb s t = false.
Proof. intros H. destruct (str_eqb s t) eqn:E; [|reflexivity]. apply str_eqb_eq in E. contradiction. Qed.
Lemma cow_mk c : cow_val (mk_cow (is_owned c) (cow_val c)) = cow_val c.
Proof. now destruct c. Qed.
Lemma direct_follow v rest : Forall (fun s => ps_optional s = false) rest -> follow v rest <> Absent.
Proof.
  intros H. revert v. induction H as [|s rest Hs _ IH]; intros v; cbn [follow]; [discriminate|]. rewrite Hs.
  destruct (ps_key s), v; try discriminate; [destruct (map_get _ _)|destruct (nth_error _ _)]; auto; discriminate.
Qed.

(** ** The laws, in one world *)
Section Laws.
Variable w : world.
Section Inc.
Variable inc : option meaning.
Variable n : option str.
Notation sc := (m_scope w inc n).
Lemma m_scope_app a b en h : sc (a ++ b) en h = rbind (sc a en h) (fun h => sc b en h).
Proof. induction a as [|s a IH] in h |- *; cbn [app m_scope]; [reflexivity|]. rewrite rbind_assoc. apply rbind_ext. intros h'. apply IH. Qed.
Lemma m_scope_one s en h : sc [s] en h = m_stmt w inc n s en h.
Proof.
  cbn [m_scope]. generalize (m_stmt w inc n s en h). intros x. induction x as [r|t o IHo e IHe]; cbn [rbind]; [now destruct r|]. now rewrite IHo, IHe.
Qed.
Lemma each_same f g en bs : (forall en h, same (f en h) (g en h)) -> forall h, same (m_each f en bs h) (m_each g en bs h).
Proof. intros E. induction bs as [|b bs IH]; intros h; cbn [m_each]; [apply same_refl|]. apply same_bind; auto. Qed.
Lemma fail_bind {A B} t (f : A -> rt B) : rbind (m_fail n t) f = m_fail n t.
Proof. reflexivity. Qed.

(** What can be renamed. *)
Lemma quiet x y : x <> s2b "loop" -> y <> s2b "loop" -> forall m, m <> x /\ m <> y -> forall (c : cow) i rem o v (rest : list pstep) k m', m' <> x /\ m' <> y -> True ->
  (ask (BName m c) x rest = None /\ ask (BName m c) y rest = None) /\
  (ask (BItem m o v i rem) x rest = None /\ ask (BItem m o v i rem) y rest = None) /\
  (ask (BEntry m m' o k v i rem) x rest = None /\ ask (BEntry m m' o k v i rem) y rest = None).
Proof.
  intros Hx Hy m (M1 & M2) c i rem o v rest k m' (M3 & M4) _. cbn [ask].
  rewrite (eqb_neq x (s2b "loop")), (eqb_neq y (s2b "loop")), (eqb_neq x m), (eqb_neq y m), (eqb_neq x m'), (eqb_neq y m') by auto. auto.
Qed.
Lemma renamed_scope x y (use : list pstep -> Prop) l en1 en2 h : can_rename x y l ->
  in_block (fun a => match a with PVar first rest => first = x -> use rest | PLit _ => True end) (fun _ => True) True l ->
  moved x y use en1 en2 -> sc l en1 h = sc (rename x y l) en2 h.
Proof.
  intros (Hx & Hy & C) U M. refine (moved_scope w x y use (fun m => m <> x /\ m <> y) _ inc n l _ en1 en2 h M).
  - intros m Hm c i rem o v rest k m' Hm' _. exact (quiet x y Hx Hy m Hm c i rem o v rest k m' Hm' I).
  - revert C U. apply in_block_both; try tauto. intros [first rest|v]; cbn [mentions fits]; [|tauto]. intros A B. split; [exact B|]. intros ->. now destruct A.
Qed.
Lemma any_use x l : in_block (fun a => match a with PVar first rest => first = x -> True | PLit _ => True end) (fun _ => True) True l.
Proof.
  assert (E : forall e, in_expr (fun a => match a with PVar first rest => first = x -> True | PLit _ => True end) e).
  { induction e as [[|]|recv IH name args]; cbn [in_expr]; auto. split; [exact IH|]. destruct args as [l0|]; [|exact I]. apply Forall_forall. intros [|]; auto. }
  assert (K : forall l, Forall (in_stmt (fun a => match a with PVar first rest => first = x -> True | PLit _ => True end) (fun _ => True) True) l ->
    in_block (fun a => match a with PVar first rest => first = x -> True | PLit _ => True end) (fun _ => True) True l).
  { induction 1 as [|s l0 Hs _ IH]; [exact I|]. split; auto. }
  apply K. apply Forall_forall. intros s _. clear l.
  induction s as [t|e|name arg|neg c thn els IHt IHe|item e b IHb|kn vn e b IHb|e name b IHb] using pstmt_ind'.
  - exact I.
  - apply E.
  - destruct arg as [e|]; [apply E|exact I].
  - split; [apply E|]. split; [exact (K thn IHt)|]. destruct els as [l|]; [exact (K l IHe)|exact I].
  - split; [exact I|]. split; [apply E|exact (K b IHb)].
  - split; [exact I|]. split; [exact I|]. split; [apply E|exact (K b IHb)].
  - split; [exact I|]. split; [apply E|exact (K b IHb)].
Qed.
Definition directs (rest : list pstep) : Prop := Forall (fun s => ps_optional s = false) rest.
Lemma direct_uses x l : direct_use x l -> in_block (fun a => match a with PVar first rest => first = x -> directs rest | PLit _ => True end) (fun _ => True) True l.
Proof. intros H. refine (in_block_both _ _ _ _ _ _ _ _ _ l _ _ _ H H); try tauto. intros [first rest|v]; cbn; tauto. Qed.
Lemma each_moved x y (use : list pstep -> Prop) l en bs1 bs2 : can_rename x y l ->
  in_block (fun a => match a with PVar first rest => first = x -> use rest | PLit _ => True end) (fun _ => True) True l ->
  Forall2 (fun b1 b2 => moved x y use (b1 :: en) (b2 :: en)) bs1 bs2 ->
  forall h, m_each (sc l) en bs1 h = m_each (sc (rename x y l)) en bs2 h.
Proof.
  intros C U. induction 1 as [|b1 b2 bs1 bs2 M _ IH]; intros h; cbn [m_each]; [reflexivity|].
  rewrite (renamed_scope x y use l (b1 :: en) (b2 :: en) h C U M). apply rbind_ext. exact IH.
Qed.
Lemma items_moved x y en o l : x <> s2b "loop" -> y <> s2b "loop" -> forall k,
  Forall2 (fun b1 b2 => moved x y directs (b1 :: en) (b2 :: en)) (item_rounds x o k l) (item_rounds y o k l).
Proof.
  intros Hx Hy. induction l as [|v l IH]; intros k; cbn [item_rounds]; constructor; auto. constructor.
  - intros z rest Zx Zy. cbn [m_find ask]. rewrite (eqb_neq z x Zx), (eqb_neq z y Zy). reflexivity.
  - intros rest D. cbn [m_find ask]. rewrite (eqb_neq x _ Hx), (eqb_neq y _ Hy), !eqb_refl. unfold item_path.
    pose proof (direct_follow v rest D) as F. destruct (follow v rest); [reflexivity|congruence|reflexivity].
Qed.
Lemma values_moved x y kn en o l : x <> s2b "loop" -> y <> s2b "loop" -> x <> kn -> y <> kn -> forall k,
  Forall2 (fun b1 b2 => moved x y directs (b1 :: en) (b2 :: en)) (entry_rounds kn x o k l) (entry_rounds kn y o k l).
Proof.
  intros Hx Hy Kx Ky. induction l as [|[kk v] l IH]; intros k; cbn [entry_rounds]; constructor; auto. constructor.
  - intros z rest Zx Zy. cbn [m_find ask]. rewrite (eqb_neq z x Zx), (eqb_neq z y Zy). reflexivity.
  - intros rest D. cbn [m_find ask]. rewrite (eqb_neq x _ Hx), (eqb_neq y _ Hy), (eqb_neq x kn Kx), (eqb_neq y kn Ky), !eqb_refl. unfold item_path.
    pose proof (direct_follow v rest D) as F. destruct (follow v rest); [reflexivity|congruence|reflexivity].
Qed.
Lemma keys_moved x y vn en o l : x <> s2b "loop" -> y <> s2b "loop" -> x <> vn -> y <> vn -> forall k,
  Forall2 (fun b1 b2 => moved x y (fun _ => True) (b1 :: en) (b2 :: en)) (entry_rounds x vn o k l) (entry_rounds y vn o k l).
Proof.
  intros Hx Hy Kx Ky. induction l as [|[kk v] l IH]; intros k; cbn [entry_rounds]; constructor; auto. constructor.
  - intros z rest Zx Zy. cbn [m_find ask]. rewrite (eqb_neq z x Zx), (eqb_neq z y Zy). reflexivity.
  - intros rest D. cbn [m_find ask]. rewrite (eqb_neq x _ Hx), (eqb_neq y _ Hy), !eqb_refl. reflexivity.
Qed.

Theorem laws_hold a b : refactors (w_function w) (w_default w) a b -> forall en h, same (sc a en h) (sc b en h).
Proof.
  induction 1 as [l|a b _ IH|a b c _ IH1 _ IH2|a a' b b' _ IH1 _ IH2|neg c a a' b b' _ IH1 _ IH2|i e a a' _ IH|k v e a a' _ IH|e x a a' _ IH
    |s t| |s Hd|neg c a b|neg v a b|neg c a b l|s neg c a b|e x Hv|e x a l Hu|e x y a Hc|e x y a Hc Hd|e x y v a Hc Hx Hy|e k x y a Hc Hd Hx Hy]; intros en h.
  - apply same_refl.
  - now apply same_sym.
  - eapply same_trans; eauto.
  - rewrite !m_scope_app. apply same_bind; auto.
  - rewrite !m_scope_one, !m_stmt_if. destruct (m_expr w en c) as [v|t]; [|apply same_refl]. destruct (xorb _ _); [auto|].
    specialize (IH2 en h). destruct b, b'; exact IH2.
  - rewrite !m_scope_one, !m_stmt_for. destruct (m_expr w en e) as [v|t]; [|apply same_refl]. destruct (cow_val v); try apply same_refl. now apply each_same.
  - rewrite !m_scope_one, !m_stmt_entries. destruct (m_expr w en e) as [c|t]; [|apply same_refl]. destruct (cow_val c); try apply same_refl. now apply each_same.
  - rewrite !m_scope_one, !m_stmt_with. destruct (m_expr w en e) as [c|t]; [auto|apply same_refl].
  - intros buf. cbn [m_scope m_stmt rbind run_string]. now rewrite app_assoc.
  - intros buf. cbn [m_scope m_stmt rbind run_string]. now rewrite app_nil_r.
  - intros buf. cbn [m_scope m_stmt m_show m_expr]. rewrite Hd. cbn [cow_val fmt_default display_chunks write_chunks run_fmt rbind run_string]. reflexivity.
  - rewrite !m_scope_one, !m_stmt_if. destruct (m_expr w en c) as [v|t]; [|apply same_refl]. destruct neg, (as_bool _); apply same_refl.
  - rewrite !m_scope_one, !m_stmt_if. cbn [m_expr cow_val]. destruct (xorb _ _); apply same_refl.
  - change (PIf neg c a (Some b) :: l) with ([PIf neg c a (Some b)] ++ l). rewrite m_scope_app, !m_scope_one, !m_stmt_if. destruct (m_expr w en c) as [v|t]; [|apply same_refl].
    destruct (xorb _ _); rewrite m_scope_app; apply same_refl.
  - intros buf. change [PText s; PIf neg c a (Some b)] with ([PText s] ++ [PIf neg c a (Some b)]). rewrite m_scope_app, !m_scope_one.
    change (m_stmt w inc n (PText s) en h) with (RWrite s (RRet (Ok h)) (RRet (Err (mkerror KFormat n None None)))). cbn [rbind run_string]. rewrite !m_scope_one, !m_stmt_if. destruct (m_expr w en c) as [v|t]; [|reflexivity]. destruct (xorb _ _); reflexivity.
  - rewrite !m_scope_one, m_stmt_with.
    assert (E : m_show w en e = match m_expr w en e with inl c => inl (w_default w, cow_val c) | inr t => inr t end).
    { destruct e as [a|recv f [l|]]; try reflexivity. destruct Hv as (fl & Hf). cbn [m_show m_expr]. destruct (m_expr w en recv) as [c|]; [|reflexivity].
      unfold m_apply. rewrite Hf. destruct (m_call _ _ _ _); reflexivity. }
    cbn [m_stmt]. rewrite E. destruct (m_expr w en e) as [c|t]; [|apply same_refl]. rewrite m_scope_one. cbn [m_stmt m_show m_expr m_find ask].
    rewrite eqb_refl. cbn [follow got_of]. rewrite cow_mk. apply same_refl.
  - change (PWith e x a :: l) with ([PWith e x a] ++ l). rewrite m_scope_app, !m_scope_one, !m_stmt_with. destruct (m_expr w en e) as [c|t]; [|apply same_refl].
    rewrite m_scope_app. apply same_bind; [apply same_refl|]. intros h'.
    rewrite (moved_scope w x x (fun _ => False) (fun _ => True)) with (l := l) (en1 := en) (en2 := BName x c :: en).
    + rewrite rename_same. apply same_refl.
    + intros. contradiction.
    + refine (in_block_both _ _ _ _ _ _ _ _ _ l _ _ _ Hu Hu); try tauto. intros [first rest|v]; cbn [mentions fits]; tauto.
    + constructor; [|intros; contradiction]. intros z rest Hz _. cbn [m_find ask]. now rewrite (eqb_neq z x Hz).
  - rewrite !m_scope_one, !m_stmt_with. destruct (m_expr w en e) as [c|t]; [|apply same_refl].
    rewrite (renamed_scope x y (fun _ => True) a (BName x c :: en) (BName y c :: en) h Hc (any_use x a)); [apply same_refl|]. constructor.
    + intros z rest Zx Zy. cbn [m_find ask]. now rewrite (eqb_neq z x Zx), (eqb_neq z y Zy).
    + intros rest _. cbn [m_find ask]. now rewrite !eqb_refl.
  - rewrite !m_scope_one, !m_stmt_for. destruct (m_expr w en e) as [c|t]; [|apply same_refl]. destruct (cow_val c); try apply same_refl.
    rewrite (each_moved x y directs a en _ _ Hc (direct_uses x a Hd) (items_moved x y en _ _ (proj1 Hc) (proj1 (proj2 Hc)) 0)). apply same_refl.
  - rewrite !m_scope_one, !m_stmt_entries. destruct (m_expr w en e) as [c|t]; [|apply same_refl]. destruct (cow_val c); try apply same_refl.
    rewrite (each_moved x y (fun _ => True) a en _ _ Hc (any_use x a) (keys_moved x y v en _ _ (proj1 Hc) (proj1 (proj2 Hc)) Hx Hy 0)). apply same_refl.
  - rewrite !m_scope_one, !m_stmt_entries. destruct (m_expr w en e) as [c|t]; [|apply same_refl]. destruct (cow_val c); try apply same_refl.
    rewrite (each_moved x y directs a en _ _ Hc (direct_uses x a Hd) (values_moved x y k en _ _ (proj1 Hc) (proj1 (proj2 Hc)) Hx Hy 0)). apply same_refl.
Qed.
End Inc.
End Laws.

(** ** Two worlds whose templates are rewritten *)
Section Worlds.
Variables w1 w2 : world.
Hypothesis Hf : forall n, w_function w1 n = w_function w2 n.
Hypothesis Hd : w_default w1 = w_default w2.
Hypothesis Hl : w_limit w1 = w_limit w2.
Notation rel := (refactors (w_function w2) (w_default w2)).
Hypothesis Ht : forall asked n, match w_find w1 asked n, w_find w2 asked n with
  | inl (b1, h1), inl (b2, h2) => rel b1 b2 /\ h1 = h2 | inr r1, inr r2 => r1 = r2 | _, _ => False end.
Section Stmts.
Variables inc1 inc2 : option meaning.
Hypothesis Hi : match inc1, inc2 with Some a, Some b => forall b1 b2, rel b1 b2 -> forall n en asked, same (a b1 n en asked) (b b2 n en asked) | None, None => True | _, _ => False end.
Variable n : option str.
Lemma alike_stmt : forall s en asked, same (m_stmt w1 inc1 n s en asked) (m_stmt w2 inc2 n s en asked).
Proof.
  pose proof (agree_expr w1 w2 Hf) as AE. pose proof (agree_show w1 w2 Hf Hd) as AS.
  assert (SC : forall l, Forall (fun x => forall en asked, same (m_stmt w1 inc1 n x en asked) (m_stmt w2 inc2 n x en asked)) l ->
    forall en asked, same (m_scope w1 inc1 n l en asked) (m_scope w2 inc2 n l en asked)).
  { induction 1 as [|x l Hx _ IHl]; intros en asked; cbn [m_scope]; [apply same_refl|]. apply same_bind; auto. }
  intros s. induction s as [t|e|name arg|neg c thn els IHt IHe|item e b IHb|kn vn e b IHb|e name b IHb] using pstmt_ind'; intros en asked.
  - apply same_refl.
  - cbn [m_stmt]. rewrite AS. apply same_refl.
  - assert (IN : forall en', same (match w_find w1 asked name with
      | inr r => m_fail n (KRender, r)
      | inl (body, asked) => match inc1 with None => m_fail None (KRender, s2b "reached maximum include depth (" ++ show_N (w_limit w1) ++ s2b ")") | Some meaning => meaning body (Some name) en' asked end
      end) (match w_find w2 asked name with
      | inr r => m_fail n (KRender, r)
      | inl (body, asked) => match inc2 with None => m_fail None (KRender, s2b "reached maximum include depth (" ++ show_N (w_limit w2) ++ s2b ")") | Some meaning => meaning body (Some name) en' asked end
      end)).
    { intros en'. specialize (Ht asked name). rewrite Hl. destruct (w_find w1 asked name) as [[b1 h1]|r1], (w_find w2 asked name) as [[b2 h2]|r2]; try contradiction.
      - destruct Ht as (R & ->). destruct inc1, inc2; try contradiction; [auto|apply same_refl].
      - rewrite Ht. apply same_refl. }
    cbn [m_stmt]. destruct arg as [e|]; [|apply IN]. rewrite AE. destruct (m_expr w2 en e); [apply IN|apply same_refl].
  - rewrite !m_stmt_if, AE. destruct (m_expr w2 en c) as [v|]; [|apply same_refl].
    destruct (xorb _ _); [now apply SC|]. destruct els as [l|]; [now apply SC|apply same_refl].
  - rewrite !m_stmt_for, AE. destruct (m_expr w2 en e) as [v|]; [|apply same_refl]. destruct (cow_val v); try apply same_refl. apply each_same. now apply SC.
  - rewrite !m_stmt_entries, AE. destruct (m_expr w2 en e) as [v|]; [|apply same_refl]. destruct (cow_val v); try apply same_refl. apply each_same. now apply SC.
  - rewrite !m_stmt_with, AE. destruct (m_expr w2 en e) as [v|]; [|apply same_refl]. now apply SC.
Qed.
Lemma alike_scope l : forall en asked, same (m_scope w1 inc1 n l en asked) (m_scope w2 inc2 n l en asked).
Proof. induction l as [|x l IHl]; intros en asked; cbn [m_scope]; [apply same_refl|]. apply same_bind; [apply alike_stmt|auto]. Qed.
End Stmts.
Lemma alike_template d : forall b1 b2, rel b1 b2 -> forall n en asked, same (m_template w1 d b1 n en asked) (m_template w2 d b2 n en asked).
Proof.
  induction d as [|d IH]; intros b1 b2 R n en asked; cbn [m_template].
  - eapply same_trans; [apply (alike_scope None None I)|apply laws_hold, R].
  - eapply same_trans; [apply (alike_scope (Some (m_template w1 d)) (Some (m_template w2 d)) IH)|apply laws_hold, R].
Qed.
Lemma alike_render b1 b2 n en : rel b1 b2 -> same (m_render w1 b1 n en) (m_render w2 b2 n en).
Proof. intros R. unfold m_render. rewrite Hl. apply same_bind; [now apply alike_template|]. intros ?. apply same_refl. Qed.
End Worlds.
End Facts.
