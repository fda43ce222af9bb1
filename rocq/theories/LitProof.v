(** Literals: the parser's decoding agrees with the specification. *)
From Verif Require Import Base Utf8 Ext Errors Value Ast Lexer LexSpec Wp TrimProof GrammarSpec Parser.
From Coq Require Import Floats.SpecFloat.

(** ** Numerals as a left fold *)
Definition nstep (radix a : Z) (c : byte) : option Z :=
  if Byte.eqb c x5f then Some a
  else match to_digit radix c with Some x => Some (a * radix + x)%Z | None => None end.
Fixpoint nval (radix a : Z) (s : str) : option Z :=
  match s with
  | [] => Some a
  | c :: s' => match nstep radix a c with Some a' => nval radix a' s' | None => None end
  end.

Lemma nval_snoc radix s c a : nval radix a (s ++ [c]) =
  match nval radix a s with Some v => nstep radix v c | None => None end.
Proof.
  revert a; induction s as [|x s IH]; intros a; simpl.
  - destruct (nstep radix a c); reflexivity.
  - destruct (nstep radix a x); auto.
Qed.

Lemma to_digit_spec radix c x : to_digit radix c = Some x <-> digit c x /\ (x < radix)%Z.
Proof.
  unfold to_digit, digit. set (n := Z.of_N (byte_N c)).
  destruct (Z.leb_spec 48 n), (Z.leb_spec n 57), (Z.leb_spec 97 n), (Z.leb_spec n 122), (Z.leb_spec 65 n), (Z.leb_spec n 90);
    cbn [andb]; try lia;
    try (match goal with |- context [(?a <? radix)%Z] => destruct (Z.ltb_spec a radix) end);
    (split; [intros HH; try discriminate; injection HH as <-; split; lia | intros HH; try (f_equal; lia); exfalso; lia]).
Qed.

Lemma digit_us d : ~ digit x5f d.
Proof. unfold digit. change (Z.of_N (byte_N x5f)) with 95%Z. lia. Qed.

Lemma numeral_nval radix s v : numeral radix s v <-> nval radix 0 s = Some v.
Proof.
  split.
  - induction 1 as [|s v H IH|s v c d H IH Hd Hr]; auto.
    + rewrite nval_snoc, IH. reflexivity.
    + rewrite nval_snoc, IH. unfold nstep.
      destruct (Byte.eqb c x5f) eqn:Ec; [apply byte_eqb_eq in Ec; subst c; now apply digit_us in Hd|].
      rewrite (proj2 (to_digit_spec radix c d)); auto.
  - revert v. induction s as [|c s IH] using rev_ind; intros v H.
    + injection H as <-. constructor.
    + rewrite nval_snoc in H. destruct (nval radix 0 s) as [v0|]; [|discriminate]. specialize (IH v0 eq_refl).
      unfold nstep in H. destruct (Byte.eqb c x5f) eqn:Ec.
      * injection H as <-. apply byte_eqb_eq in Ec. subst c. now constructor.
      * destruct (to_digit radix c) as [x|] eqn:Ed; [|discriminate]. injection H as <-.
        apply to_digit_spec in Ed as [Hd Hr]. now constructor.
Qed.

Lemma numeral_fun radix s v v' : numeral radix s v -> numeral radix s v' -> v = v'.
Proof. rewrite !numeral_nval. congruence. Qed.

Lemma nval_ge radix s : (1 < radix)%Z -> forall a v, (0 <= a)%Z -> nval radix a s = Some v -> (a <= v)%Z.
Proof.
  intros Hr. induction s as [|c s IH]; intros a v Ha H; simpl in H; [injection H as <-; lia|].
  unfold nstep in H. destruct (Byte.eqb c x5f); [now apply IH|].
  destruct (to_digit radix c) as [x|] eqn:Ed; [|discriminate].
  apply to_digit_spec in Ed as [Hd Hx].
  assert (0 <= x)%Z by (unfold digit in Hd; lia).
  apply IH in H; [|nia]. nia.
Qed.

Lemma int_lit_fun s neg z z' : int_lit s neg z -> int_lit s neg z' -> z = z'.
Proof.
  intros [_ H] [_ H'].
  destruct H as [(b & v & E & N & ->)|[(b & v & E & N & ->)|[(b & v & E & N & ->)|(v & E & N & ->)]]];
  destruct H' as [(b' & v' & E' & N' & ->)|[(b' & v' & E' & N' & ->)|[(b' & v' & E' & N' & ->)|(v' & E' & N' & ->)]]];
  try (rewrite E in E'; discriminate);
  try (exfalso; apply E; eauto; fail); try (exfalso; apply E'; eauto; fail);
  try (rewrite E in E'; injection E' as <-); f_equal; eapply numeral_fun; eauto.
Qed.

Section WithExt.
Context `{X : Ext}.
Variable source : str.

Definition sgn (neg : bool) : sign := if neg then Neg else Pos.

(** An error span inside [sp] can be shown. *)
Definition inner_ok (sp : span) (len : nat) : Prop :=
  forall k, k < len -> span_ok source (mkspan (sp_m sp + k) (sp_m sp + k + 1)).

Lemma int_fold_spec radix i sp neg : (1 < radix <= 36)%Z -> source <> [] -> span_ok source sp ->
  forall ds j a, (0 <= a)%Z -> (i64_min <= negated neg a <= i64_max)%Z ->
  inner_ok sp (i + j + length ds) ->
  match int_fold source radix i sp (sgn neg) ds j (negated neg a) with
  | Ok z => exists v, nval radix a ds = Some v /\ z = negated neg v /\ (i64_min <= z <= i64_max)%Z
  | Err _ => forall v, nval radix a ds = Some v -> ~ (i64_min <= negated neg v <= i64_max)%Z
  | _ => False
  end.
Proof.
  intros Hr Hs Hsp. assert (Hmin : i64_min = (-9223372036854775808)%Z) by reflexivity.
  assert (Hmax : i64_max = 9223372036854775807%Z) by reflexivity.
  induction ds as [|d ds IH]; intros j a Ha Hin Hinner; cbn [int_fold nval].
  - exists a. auto.
  - unfold nstep. destruct (Byte.eqb d x5f).
    + apply IH; auto. intros k Hk. apply Hinner. simpl. lia.
    + destruct (to_digit radix d) as [x|] eqn:Ed.
      * apply to_digit_spec in Ed as [Hd Hx]. assert (0 <= x)%Z by (unfold digit in Hd; lia).
        destruct (@err_syntax_Err X Z (s2b "base " ++ show_Z radix ++ s2b " literal out of range for 64-bit integer") source sp Hs Hsp) as [e He].
        rewrite He.
        assert (Hfail : ~ (i64_min <= negated neg (a * radix + x) <= i64_max)%Z ->
          forall v, nval radix (a * radix + x) ds = Some v -> ~ (i64_min <= negated neg v <= i64_max)%Z).
        { intros Hno v Hv. apply nval_ge in Hv; [|lia|nia]. unfold negated in *. destruct neg; lia. }
        unfold checked_i64, in_i64.
        destruct ((i64_min <=? negated neg a * radix) && (negated neg a * radix <=? i64_max))%Z eqn:E1.
        -- assert (E2 : (match sgn neg with Pos => negated neg a * radix + x | Neg => negated neg a * radix - x end)%Z = negated neg (a * radix + x)).
           { unfold sgn, negated. destruct neg; lia. }
           rewrite E2.
           destruct ((i64_min <=? negated neg (a * radix + x)) && (negated neg (a * radix + x) <=? i64_max))%Z eqn:E3.
           ++ apply IH; [nia| |].
              ** rewrite andb_true_iff, !Z.leb_le in E3. exact E3.
              ** intros k Hk. apply Hinner. simpl. lia.
           ++ apply Hfail. intros H'. rewrite andb_false_iff, !Z.leb_gt in E3. lia.
        -- apply Hfail. rewrite andb_false_iff, !Z.leb_gt in E1. unfold negated in *. destruct neg; nia.
      * assert (Hsp' : span_ok source (mkspan (sp_m sp + i + j) (sp_m sp + i + j + 1))).
        { replace (sp_m sp + i + j) with (sp_m sp + (i + j)) by lia. apply Hinner. simpl. lia. }
        destruct (@err_syntax_Err X Z (s2b "invalid digit for base " ++ show_Z radix ++ s2b " literal") source _ Hs Hsp') as [e He].
        rewrite He. discriminate.
Qed.

Lemma int_radix_cases s :
  (exists b, s = x30 :: x62 :: b /\ int_radix s = (2, 2%Z)) \/
  (exists b, s = x30 :: x6f :: b /\ int_radix s = (2, 8%Z)) \/
  (exists b, s = x30 :: x78 :: b /\ int_radix s = (2, 16%Z)) \/
  (~ (exists b, s = x30 :: x62 :: b \/ s = x30 :: x6f :: b \/ s = x30 :: x78 :: b) /\ int_radix s = (0, 10%Z)).
Proof.
  destruct s as [|c s]; [right; right; right; split; auto; intros (b & [H|[H|H]]); discriminate|].
  destruct (byte_eq_dec c x30) as [->|Hc].
  - destruct s as [|c s]; [right; right; right; split; auto; intros (b & [H|[H|H]]); discriminate|].
    destruct (byte_eq_dec c x62) as [->|Hb]; [left; eauto|].
    destruct (byte_eq_dec c x6f) as [->|Ho]; [right; left; eauto|].
    destruct (byte_eq_dec c x78) as [->|Hx]; [right; right; left; eauto|].
    right; right; right. split; [intros (b & [H|[H|H]]); congruence|].
    destruct c; try reflexivity; congruence.
  - right; right; right. split; [intros (b & [H|[H|H]]); congruence|]. destruct c; try reflexivity; congruence.
Qed.

Lemma parse_literal_integer_spec raw sp neg : source <> [] -> span_ok source sp ->
  inner_ok sp (length raw) ->
  match parse_literal_integer source raw sp (sgn neg) with
  | Ok v => exists z, v = VInt z /\ int_lit raw neg z
  | Err _ => forall z, ~ int_lit raw neg z
  | _ => False
  end.
Proof.
  intros Hs Hsp Hin. unfold parse_literal_integer.
  assert (Hz : negated neg 0 = 0%Z) by now destruct neg.
  assert (G : forall i radix ds (P : Z -> Prop), (1 < radix <= 36)%Z -> i + length ds = length raw ->
     (forall z, int_lit raw neg z <-> (exists v, numeral radix ds v /\ z = negated neg v) /\ (i64_min <= z <= i64_max)%Z) ->
     match bind (int_fold source radix i sp (sgn neg) ds 0 0%Z) (fun z => Ok (VInt z)) with
     | Ok v => exists z, v = VInt z /\ int_lit raw neg z
     | Err _ => forall z, ~ int_lit raw neg z
     | _ => False
     end).
  { intros i radix ds _ Hr Hlen Hiff.
    pose proof (int_fold_spec radix i sp neg Hr Hs Hsp ds 0 0%Z) as HF. rewrite Hz in HF.
    specialize (HF ltac:(lia) ltac:(unfold i64_min, i64_max; lia)).
    assert (Hin' : inner_ok sp (i + 0 + length ds)) by (replace (i + 0 + length ds) with (length raw) by lia; assumption).
    specialize (HF Hin'). destruct (int_fold _ _ _ _ _ _ _ _) as [z|e| |]; cbn [bind]; try contradiction.
    - destruct HF as (v & Hv & -> & Hr'). exists (negated neg v). split; auto. apply Hiff. split; auto.
      exists v. split; auto. now apply numeral_nval.
    - intros z Hz'. apply Hiff in Hz' as [(v & Hv & ->) Hr']. apply numeral_nval in Hv. now apply (HF v). }
  destruct (int_radix_cases raw) as [(b & -> & ->)|[(b & -> & ->)|[(b & -> & ->)|(Hno & ->)]]]; cbn [skipn].
  - apply (G 2 2%Z b (fun _ => True)); [lia|reflexivity|]. intros z. unfold int_lit. split.
    + intros (H1 & [(b' & v & E & N & Hv)|[(b' & v & E & N & Hv)|[(b' & v & E & N & Hv)|(v & E & N & Hv)]]]); try discriminate.
      * injection E as <-. eauto.
      * exfalso. apply E. eauto.
    + intros [(v & N & Hv) Hr]. split; auto. left. eauto.
  - apply (G 2 8%Z b (fun _ => True)); [lia|reflexivity|]. intros z. unfold int_lit. split.
    + intros (H1 & [(b' & v & E & N & Hv)|[(b' & v & E & N & Hv)|[(b' & v & E & N & Hv)|(v & E & N & Hv)]]]); try discriminate.
      * injection E as <-. eauto.
      * exfalso. apply E. eauto.
    + intros [(v & N & Hv) Hr]. split; auto. right. left. eauto.
  - apply (G 2 16%Z b (fun _ => True)); [lia|reflexivity|]. intros z. unfold int_lit. split.
    + intros (H1 & [(b' & v & E & N & Hv)|[(b' & v & E & N & Hv)|[(b' & v & E & N & Hv)|(v & E & N & Hv)]]]); try discriminate.
      * injection E as <-. eauto.
      * exfalso. apply E. eauto.
    + intros [(v & N & Hv) Hr]. split; auto. right. right. left. eauto.
  - apply (G 0 10%Z raw (fun _ => True)); [lia|reflexivity|]. intros z. unfold int_lit. split.
    + intros (H1 & [(b' & v & E & N & Hv)|[(b' & v & E & N & Hv)|[(b' & v & E & N & Hv)|(v & E & N & Hv)]]]);
        try (exfalso; apply Hno; eauto; fail). eauto.
    + intros [(v & N & Hv) Hr]. split; auto. right. right. right. eauto.
Qed.

Lemma number_spec raw sp neg : source <> [] -> span_ok source sp -> inner_ok sp (length raw) ->
  match parse_literal_number source raw sp (sgn neg) with
  | Ok v => number_lit raw neg v
  | Err _ => forall v, ~ number_lit raw neg v
  | _ => False
  end.
Proof.
  intros Hs Hsp Hin. pose proof (parse_literal_integer_spec raw sp neg Hs Hsp Hin) as HI.
  unfold parse_literal_number. destruct (parse_literal_integer source raw sp (sgn neg)) as [v|e| |]; try contradiction.
  - destruct HI as (z & -> & Hz). now constructor.
  - unfold parse_literal_float. destruct (f64_parse raw) as [f|] eqn:Ef.
    + replace (match sgn neg with Neg => SFopp f | Pos => f end) with (if neg then SFopp f else f) by now destruct neg.
      now constructor.
    + destruct (@err_syntax_Err X value (s2b "invalid float literal") source sp Hs Hsp) as [e2 ->].
      assert (HN : forall v, ~ number_lit raw neg v).
      { intros v Hv. inversion Hv as [z Hz E|f Hz Hf E]; [now apply (HI z)|congruence]. }
      destruct (_ || _); exact HN.
Qed.

Lemma number_complete raw sp neg v : source <> [] -> span_ok source sp -> inner_ok sp (length raw) ->
  number_lit raw neg v -> parse_literal_number source raw sp (sgn neg) = Ok v.
Proof.
  intros Hs Hsp Hin Hv. pose proof (number_spec raw sp neg Hs Hsp Hin) as HS.
  destruct (parse_literal_number source raw sp (sgn neg)) as [v'|e| |] eqn:E; try contradiction.
  - f_equal. inversion HS as [z Hz E1|f Hz Hf E1]; inversion Hv as [z' Hz' E2|f' Hz' Hf' E2].
    + f_equal. eapply int_lit_fun; eauto.
    + exfalso. eapply Hz'; eauto.
    + exfalso. eapply Hz; eauto.
    + rewrite Hf in Hf'. injection Hf' as <-. reflexivity.
  - now apply HS in Hv.
Qed.

(** ** Index literals *)
Lemma parse_usize_loop_spec s : forall a, (0 <= a <= u64_max)%Z ->
  parse_usize_loop s a = match nval 10 a s with
    | Some v => if existsb (Byte.eqb x5f) s then None else if (v <=? u64_max)%Z then Some v else None
    | None => None end.
Proof.
  assert (Hmax : u64_max = 18446744073709551615%Z) by reflexivity.
  induction s as [|c s IH]; intros a Ha; simpl.
  - rewrite (proj2 (Z.leb_le a u64_max)) by lia. reflexivity.
  - unfold nstep. destruct (Byte.eqb c x5f) eqn:Ec.
    + apply byte_eqb_eq in Ec. subst c. simpl. destruct (nval 10 a s); reflexivity.
    + assert (Hc : Byte.eqb x5f c = false). { apply byte_eqb_neq. apply byte_eqb_neq in Ec. congruence. }
      rewrite Hc. cbn [orb]. destruct (to_digit 10 c) as [x|] eqn:Ed; auto.
      apply to_digit_spec in Ed as [Hd Hx]. assert (0 <= x)%Z by (unfold digit in Hd; lia).
      destruct (Z.leb_spec (a * 10 + x) u64_max).
      * apply IH. lia.
      * destruct (nval 10 (a * 10 + x) s) as [v|] eqn:Ev; auto. apply nval_ge in Ev; [|lia|lia].
        rewrite (proj2 (Z.leb_gt v u64_max)) by lia. now destruct (existsb _ _).
Qed.

Lemma parse_usize_spec s v : parse_usize s = Some v <-> index_lit s v.
Proof.
  unfold parse_usize, index_lit.
  assert (Hus : existsb (Byte.eqb x5f) s = true <-> In x5f s).
  { rewrite existsb_exists. split.
    - intros (y & Hy & E). apply byte_eqb_eq in E. now subst y.
    - intros H. exists x5f. split; auto. }
  destruct s as [|c s]; [split; [discriminate|intros [H _]; contradiction]|].
  rewrite parse_usize_loop_spec by (unfold u64_max; lia). rewrite numeral_nval.
  destruct (nval 10 0 (c :: s)) as [z|] eqn:En.
  - assert (0 <= z)%Z by (eapply nval_ge; [| |exact En]; lia).
    destruct (existsb (Byte.eqb x5f) (c :: s)).
    + split; [discriminate|]. intros (_ & H1 & _). exfalso. apply H1. now apply Hus.
    + destruct (Z.leb_spec z u64_max); simpl option_map.
      * split.
        -- intros E. injection E as <-. rewrite Z2N.id by lia. repeat split; auto; [discriminate|].
           intros Hi. apply Hus in Hi. discriminate.
        -- intros (_ & _ & E & _). injection E as ->. now rewrite N2Z.id.
      * split; [discriminate|]. intros (_ & _ & E & Hl). injection E as ->. lia.
  - simpl. split; [discriminate|]. intros (_ & _ & E & _). discriminate.
Qed.

(** ** String literals *)
Lemma unescaped_fun cs o : unescaped cs o -> forall o', unescaped cs o' -> o = o'.
Proof.
  induction 1; intros o' H'; inversion H'; subst; try congruence; try (f_equal; now apply IHunescaped); auto; lia.
Qed.

(** The last character is not a backslash. *)
Definition no_trailing (cs : list N) : Prop := forall cs', cs <> cs' ++ [92%N].

Lemma no_trailing_tl c cs : no_trailing (c :: cs) -> no_trailing cs.
Proof. intros H cs' ->. apply (H (c :: cs')). reflexivity. Qed.

Lemma body_no_trailing cs : forall prev, str_body_ok prev cs -> no_trailing cs.
Proof.
  intros prev H cs' ->. revert prev H. induction cs' as [|c cs' IH]; intros prev H; simpl in H.
  - destruct H as [_ H]. contradiction.
  - destruct H as [_ H]. eapply IH; eauto.
Qed.

Definition unescape_here (off : nat) (body : list N) (tail : str) (acc : str) : res str :=
  unescape source (char_indices off (flat_map encode body ++ x22 :: tail)) acc.

Lemma skipn_bound off a b : skipn off source = a ++ b -> valid_utf8 b -> off <= length source ->
  boundary source (off + length a) = true.
Proof.
  intros E V Ho. assert (length source - off = length a + length b).
  { apply (f_equal (@length byte)) in E. rewrite skipn_length, app_length in E. exact E. }
  apply boundary_of_valid; [lia|].
  rewrite Nat.add_comm, <- skipn_skipn, E, skipn_app, skipn_all, Nat.sub_diag. exact V.
Qed.

Lemma unescape_spec : source <> [] -> forall n body off acc post, length body < n -> Forall scalar body -> no_trailing body ->
  valid_utf8 post -> skipn off source = flat_map encode body ++ x22 :: post -> off <= length source ->
  match unescape source (char_indices off (flat_map encode body ++ [x22])) acc with
  | Ok s => exists o, unescaped body o /\ s = acc ++ o
  | Err _ => forall o, ~ unescaped body o
  | _ => False
  end.
Proof.
  intros Hs. induction n as [|n IH]; intros body off acc post Hn Hsc Hnt Vp Esk Hoff; [lia|].
  assert (Vq : valid_utf8 (x22 :: post)).
  { change (x22 :: post) with ([x22] ++ post). apply valid_app; auto. now apply asciib_valid. }
  assert (Hstep : forall c body', body = c :: body' -> scalar c /\ Forall scalar body' /\ no_trailing body' /\
     skipn (off + len_utf8 c) source = flat_map encode body' ++ x22 :: post /\ off + len_utf8 c <= length source).
  { intros c body' ->. inversion Hsc; subst. split; auto. split; auto. split; [eapply no_trailing_tl; eauto|].
    simpl in Esk. rewrite <- app_assoc in Esk.
    assert (length source - off = length (encode c) + length (flat_map encode body' ++ x22 :: post)).
    { apply (f_equal (@length byte)) in Esk. rewrite skipn_length, app_length in Esk. exact Esk. }
    unfold len_utf8. split; [|lia].
    rewrite Nat.add_comm, <- skipn_skipn, Esk, skipn_app, skipn_all, Nat.sub_diag. reflexivity. }
  destruct body as [|c body].
  - cbn [flat_map app]. change [x22] with (encode 34 ++ []). rewrite char_indices_encode by (left; lia). simpl.
    exists []. split; [constructor|]. now rewrite app_nil_r.
  - destruct (Hstep c body eq_refl) as (Hc & Hb & Hnt1 & Esk1 & Hoff1). simpl in Hn.
    cbn [flat_map]. rewrite <- app_assoc, char_indices_encode by assumption. cbn [unescape].
    destruct (N.eqb_spec c 34) as [->|N34].
    + specialize (IH body (off + len_utf8 34) acc post ltac:(lia) Hb Hnt1 Vp Esk1 Hoff1).
      destruct (unescape _ _ _); auto.
      * destruct IH as (o & Ho & ->). exists o. split; auto. now constructor.
      * intros o Ho. inversion Ho; subst; [congruence|]. now apply (IH o).
    + destruct (N.eqb_spec c 92) as [->|N92].
      * destruct body as [|e body].
        { exfalso. now apply (Hnt []). }
        cbn [flat_map]. rewrite <- app_assoc. inversion Hb; subst.
        rewrite char_indices_encode by assumption.
        simpl in Hn.
        assert (Hnt2 := no_trailing_tl _ _ Hnt1).
        assert (Esk2 : skipn (off + len_utf8 92 + len_utf8 e) source = flat_map encode body ++ x22 :: post /\ off + len_utf8 92 + len_utf8 e <= length source).
        { cbn [flat_map] in Esk1. rewrite <- app_assoc in Esk1.
          assert (length source - (off + len_utf8 92) = length (encode e) + length (flat_map encode body ++ x22 :: post)).
          { apply (f_equal (@length byte)) in Esk1. rewrite skipn_length, app_length in Esk1. exact Esk1. }
          split; [|unfold len_utf8 at 2; lia]. 
          rewrite (Nat.add_comm _ (len_utf8 e)), <- skipn_skipn, Esk1, skipn_app. unfold len_utf8. rewrite skipn_all, Nat.sub_diag. reflexivity. }
        destruct Esk2 as [Esk2 Hoff2].
        assert (Huse : forall b, (forall o, unescaped (92 :: e :: body)%N o -> exists o', o = b :: o' /\ unescaped body o') ->
           (forall o', unescaped body o' -> unescaped (92 :: e :: body)%N (b :: o')) ->
           match unescape source (char_indices (off + len_utf8 92 + len_utf8 e) (flat_map encode body ++ [x22])) (acc ++ [b]) with
           | Ok s => exists o, unescaped (92 :: e :: body)%N o /\ s = acc ++ o
           | Err _ => forall o, ~ unescaped (92 :: e :: body)%N o
           | _ => False
           end).
        { intros b Hinv Hcon. specialize (IH body (off + len_utf8 92 + len_utf8 e) (acc ++ [b]) post ltac:(lia) H2 Hnt2 Vp Esk2 Hoff2).
          destruct (unescape _ _ _); auto.
          - destruct IH as (o & Ho & ->). exists (b :: o). split; auto. now rewrite <- app_assoc.
          - intros o Ho. apply Hinv in Ho as (o' & -> & Ho'). now apply (IH o'). }
        destruct (N.eqb_spec e 110) as [->|M1].
        { apply Huse; [intros o Ho; inversion Ho; subst; eauto; congruence|intros; now constructor]. }
        destruct (N.eqb_spec e 114) as [->|M2].
        { apply Huse; [intros o Ho; inversion Ho; subst; eauto; congruence|intros; now constructor]. }
        destruct (N.eqb_spec e 116) as [->|M3].
        { apply Huse; [intros o Ho; inversion Ho; subst; eauto; congruence|intros; now constructor]. }
        destruct (N.eqb_spec e 92) as [->|M4].
        { apply Huse; [intros o Ho; inversion Ho; subst; eauto; congruence|intros; now constructor]. }
        destruct (N.eqb_spec e 34) as [->|M5].
        { apply Huse; [intros o Ho; inversion Ho; subst; eauto; congruence|intros; now constructor]. }
        assert (Hno : forall o, ~ unescaped (92 :: e :: body)%N o).
        { intros o Ho; inversion Ho; subst; congruence. }
        assert (Hnext : exists j c' it, char_indices (off + len_utf8 92 + len_utf8 e) (flat_map encode body ++ [x22]) = (j, c') :: it /\ j = off + len_utf8 92 + len_utf8 e).
        { destruct body as [|c2 body2]; cbn [flat_map app].
          - change [x22] with (encode 34 ++ []). rewrite char_indices_encode by (left; lia). eauto.
          - inversion H2; subst. rewrite <- app_assoc, char_indices_encode by assumption. eauto. }
        destruct Hnext as (j & c' & it & -> & ->).
        assert (Hspan : span_ok source (mkspan (off + len_utf8 92) (off + len_utf8 92 + len_utf8 e))).
        { split; [simpl; lia|]. simpl. split.
          - apply boundary_of_valid; [lia|]. rewrite Esk1. apply valid_app; [|assumption]. now exists (e :: body).
          - apply boundary_of_valid; [lia|]. rewrite Esk2. apply valid_app; [|assumption]. now exists body. }
        destruct (@err_syntax_Err X str (s2b "unknown escape character") source _ Hs Hspan) as [er ->]. exact Hno.
      * specialize (IH body (off + len_utf8 c) (acc ++ encode c) post ltac:(lia) Hb Hnt1 Vp Esk1 Hoff1).
        destruct (unescape _ _ _); auto.
        -- destruct IH as (o & Ho & ->). exists (encode c ++ o). split; [now constructor|]. now rewrite app_assoc.
        -- intros o Ho. inversion Ho; subst; try congruence. eapply IH; eauto.
Qed.

Lemma plain_unescaped body : Forall scalar body -> ~ In 92%N body -> forall prev, prev <> 92%N ->
  str_body_ok prev body -> unescaped body (flat_map encode body).
Proof.
  induction 1 as [|c body Hc Hb IH]; intros Hn prev Hp Hok; simpl; [constructor|].
  destruct Hok as [(H1 & H2 & H3) Hok]. simpl in Hn. constructor; [|tauto|apply IH with c; tauto].
  intros ->. apply Hp. now apply H3.
Qed.

(** [parse_string] on a string token. *)
Lemma parse_string_spec sp p : source <> [] -> valid_utf8 source -> span_ok source sp ->
  lexeme p TString (sub source (sp_m sp) (sp_n sp)) ->
  match parse_string source sp with
  | Ok s => string_lit (sub source (sp_m sp) (sp_n sp)) s
  | Err _ => forall o, ~ string_lit (sub source (sp_m sp) (sp_n sp)) o
  | _ => False
  end.
Proof.
  intros Hs Vs Hsp (body & Ech & Hok).
  destruct sp as [m n]. pose proof Hsp as (H1 & B1 & B2). cbn [sp_m sp_n] in *.
  set (s := sub source m n) in *.
  assert (V : valid_utf8 s) by (apply sub_valid; auto).
  assert (Hsc : Forall scalar (34 :: body ++ [34])%N) by (rewrite <- Ech; now apply chars_scalar).
  assert (Hsb : Forall scalar body). { inversion Hsc; subst. apply Forall_app in H3. tauto. }
  assert (Es : s = [x22] ++ flat_map encode body ++ [x22]).
  { rewrite <- (flat_map_chars s V), Ech. change (34 :: body ++ [34])%N with ([34] ++ body ++ [34])%N.
    rewrite !flat_map_app. reflexivity. }
  assert (Esrc : skipn m source = s ++ skipn n source).
  { unfold s, sub. replace n with ((n - m) + m) at 2 by lia. rewrite <- skipn_skipn, firstn_skipn. reflexivity. }
  assert (Vb : valid_utf8 (flat_map encode body)) by now exists body.
  unfold parse_string. rewrite index_span_ok by assumption. cbn [bind sp_m sp_n]. fold s.
  unfold string_lit. rewrite Ech.
  assert (Hinj : forall b' : list N, (34 :: body ++ [34] = 34 :: b' ++ [34])%N -> b' = body).
  { intros b' E. injection E as E. apply app_inj_tail in E as [E _]. auto. }
  destruct (containsb x5c s) eqn:Ec.
  - rewrite Es. change [x22] with (encode 34) at 1. rewrite char_indices_encode by (left; lia). cbn [unescape].
    assert (Hnt := body_no_trailing _ _ Hok).
    assert (Hml := boundary_le _ _ B2).
    assert (Hlen : n - m = 1 + length (flat_map encode body) + 1).
    { assert (length s = n - m) by (apply sub_length; lia). rewrite Es, !app_length in H. simpl in H. lia. }
    pose proof (unescape_spec Hs (S (length body)) body (m + len_utf8 34) [] (skipn n source) ltac:(lia) Hsb Hnt) as HU.
    assert (Esk : skipn (m + len_utf8 34) source = flat_map encode body ++ x22 :: skipn n source).
    { rewrite Nat.add_comm, <- skipn_skipn, Esrc, Es, <- !app_assoc. reflexivity. }
    specialize (HU ltac:(now apply boundary_split) Esk ltac:(change (len_utf8 34) with 1; lia)).
    simpl (34 =? 34)%N. cbv iota.
    destruct (unescape _ _ _) as [o|e| |]; auto.
    + destruct HU as (o' & Ho & ->). exists body. simpl. auto.
    + intros o (b' & Eb & Ho). apply Hinj in Eb. subst b'. now apply (HU o).
  - assert (Hlen : length s = length (flat_map encode body) + 2) by (rewrite Es, !app_length; simpl; lia).
    unfold AhoCorasick.usub. rewrite (proj2 (Nat.ltb_ge (length s) 1)) by lia. cbn [bind].
    assert (Esub : sub s 1 (length s - 1) = flat_map encode body).
    { unfold sub. rewrite Es at 2. cbn [app skipn]. replace (length s - 1 - 1) with (length (flat_map encode body)) by lia.
      rewrite firstn_app, firstn_all, Nat.sub_diag, app_nil_r. reflexivity. }
    rewrite slice_Ok.
    + rewrite Esub. exists body. split; auto. apply plain_unescaped with 34%N; auto; [|discriminate].
      intros Hin. assert (Hc : containsb x5c s = true); [|congruence].
      unfold containsb. apply existsb_exists. exists x5c. split; auto. rewrite Es. apply in_or_app. right.
      apply in_or_app. left. apply in_flat_map. exists 92%N. split; auto. simpl. auto.
    + lia.
    + apply (boundary_of_valid s 1); [lia|]. rewrite Es. cbn [app skipn]. apply valid_app; auto. now apply asciib_valid.
    + apply (boundary_of_valid s); [lia|]. rewrite Es at 2.
      replace (length s - 1) with (length (flat_map encode body) + 1) by lia.
      replace ([x22] ++ flat_map encode body ++ [x22]) with ((x22 :: flat_map encode body) ++ [x22]) by reflexivity.
      rewrite skipn_app. replace (length (flat_map encode body) + 1) with (length (x22 :: flat_map encode body)) by (simpl; lia).
      rewrite skipn_all, Nat.sub_diag. now apply asciib_valid.
Qed.

Lemma string_lit_fun s o o' : string_lit s o -> string_lit s o' -> o = o'.
Proof.
  intros (b & E & H) (b' & E' & H'). rewrite E in E'. injection E' as E'. apply app_inj_tail in E' as [<- _].
  eapply unescaped_fun; eauto.
Qed.

Lemma parse_string_complete sp p o : source <> [] -> valid_utf8 source -> span_ok source sp ->
  lexeme p TString (sub source (sp_m sp) (sp_n sp)) -> string_lit (sub source (sp_m sp) (sp_n sp)) o ->
  parse_string source sp = Ok o.
Proof.
  intros H1 H2 H3 H4 H5. pose proof (parse_string_spec sp p H1 H2 H3 H4) as H.
  destruct (parse_string source sp) as [s|e| |]; try contradiction.
  - f_equal. eapply string_lit_fun; eauto.
  - now apply H in H5.
Qed.

End WithExt.
