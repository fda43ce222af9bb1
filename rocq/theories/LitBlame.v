(** Where the errors about literals are. *)
From Verif Require Import Base Utf8 Ext Errors Syntax AhoCorasick SearchSpec SyntaxSpec Value Ast Lexer LexSpec Wp TrimProof
  LexProof GrammarSpec BlameSpec Parser LitProof TokStream ParseProof CompileErr.

Section LitBlame.
Context `{X : Ext}.
Variable source : str.

(** [e] is a syntax error at [sp] with the reason [why]. *)
Definition err_at (e : error) (sp : span) (why : str) : Prop :=
  exists p, build_pretty source sp = Ok p /\ e = mkerror KSyntax None (Some why) (Some p).
Lemma err_syntax_at {A} reason sp e : @err_syntax X A reason source sp = Err e -> err_at e sp reason.
Proof.
  unfold err_syntax. pose proof (pretty_no_err source sp) as N. destruct (build_pretty source sp) as [p|e'| |] eqn:E; cbn; try discriminate.
  - intros H. injection H as <-. exists p. auto.
  - now destruct (N e').
Qed.

Definition range_msg (b : string) : str := s2b "base " ++ s2b b ++ s2b " literal out of range for 64-bit integer".
Definition digit_msg (b : string) : str := s2b "invalid digit for base " ++ s2b b ++ s2b " literal".

Lemma checked_none neg a r x : (0 <= a)%Z -> (0 <= x)%Z -> (1 < r)%Z ->
  (checked_i64 (negated neg a * r) = None \/ exists v, checked_i64 (negated neg a * r) = Some v /\ checked_i64 (match sgn neg with Pos => v + x | Neg => v - x end) = None) ->
  ~ (i64_min <= negated neg (a * r + x) <= i64_max)%Z.
Proof.
  intros Ha Hx Hr H. unfold checked_i64, in_i64, i64_min, i64_max in *. destruct neg; cbn [sgn negated] in *.
  - destruct H as [H|(v & H1 & H2)].
    + destruct (_ && _) eqn:E in H; [discriminate|]. apply andb_false_iff in E as [E|E]; apply Z.leb_gt in E; nia.
    + destruct (_ && _) eqn:E in H1; [|discriminate]. injection H1 as <-. destruct (_ && _) eqn:E2 in H2; [discriminate|]. apply andb_false_iff in E2 as [E2|E2]; apply Z.leb_gt in E2; nia.
  - destruct H as [H|(v & H1 & H2)].
    + destruct (_ && _) eqn:E in H; [discriminate|]. apply andb_false_iff in E as [E|E]; apply Z.leb_gt in E; nia.
    + destruct (_ && _) eqn:E in H1; [|discriminate]. injection H1 as <-. destruct (_ && _) eqn:E2 in H2; [discriminate|]. apply andb_false_iff in E2 as [E2|E2]; apply Z.leb_gt in E2; nia.
Qed.
Lemma checked_some z v : checked_i64 z = Some v -> v = z.
Proof. unfold checked_i64. destruct (in_i64 z); congruence. Qed.
Lemma int_fold_err radix b i sp neg ds : (1 < radix)%Z -> show_Z radix = s2b b -> forall j pre a e, numeral radix pre a -> (0 <= a)%Z ->
  int_fold source radix i sp (sgn neg) ds j (negated neg a) = Err e ->
  (exists p1 p2 v, pre ++ ds = p1 ++ p2 /\ numeral radix p1 v /\ ~ (i64_min <= negated neg v <= i64_max)%Z /\ err_at e sp (range_msg b)) \/
  exists k c, nth_error ds k = Some c /\ c <> x5f /\ to_digit radix c = None /\
    err_at e (mkspan (sp_m sp + i + (j + k)) (sp_m sp + i + (j + k) + 1)) (digit_msg b).
Proof.
  intros Hr Eb. induction ds as [|d ds IH]; intros j pre a e Hn Ha H; cbn [int_fold] in H; [discriminate|].
  assert (Next : forall a', numeral radix (pre ++ [d]) a' -> (0 <= a')%Z -> int_fold source radix i sp (sgn neg) ds (S j) (negated neg a') = Err e ->
    (exists p1 p2 v, pre ++ d :: ds = p1 ++ p2 /\ numeral radix p1 v /\ ~ (i64_min <= negated neg v <= i64_max)%Z /\ err_at e sp (range_msg b)) \/
    exists k c, nth_error (d :: ds) k = Some c /\ c <> x5f /\ to_digit radix c = None /\ err_at e (mkspan (sp_m sp + i + (j + k)) (sp_m sp + i + (j + k) + 1)) (digit_msg b)).
  { intros a' Hn' Ha' H'. apply IH with (pre := pre ++ [d]) in H' as [(p1 & p2 & v & E & H1)|(k & c & H1 & H2 & H3 & H4)]; auto.
    - left. exists p1, p2, v. split; [|exact H1]. rewrite <- E, <- app_assoc. reflexivity.
    - right. exists (S k), c. repeat split; auto. replace (j + S k) with (S j + k) by lia. exact H4. }
  destruct (Byte.eqb d x5f) eqn:Eu; [|destruct (to_digit radix d) as [x|] eqn:Ed].
  - apply (Next a); auto. apply byte_eqb_eq in Eu. subst d. now constructor.
  - apply to_digit_spec in Ed as [Hd Hx]. assert (0 <= x)%Z by (unfold digit in Hd; lia).
    assert (Nu : numeral radix (pre ++ [d]) (a * radix + x)) by now constructor.
    assert (Bad : err_at e sp (range_msg b) -> ~ (i64_min <= negated neg (a * radix + x) <= i64_max)%Z ->
      exists p1 p2 v, pre ++ d :: ds = p1 ++ p2 /\ numeral radix p1 v /\ ~ (i64_min <= negated neg v <= i64_max)%Z /\ err_at e sp (range_msg b)).
    { intros He Ho. exists (pre ++ [d]), ds, (a * radix + x)%Z. rewrite <- app_assoc. auto. }
    assert (Em : s2b "base " ++ show_Z radix ++ s2b " literal out of range for 64-bit integer" = range_msg b) by (unfold range_msg; now rewrite Eb).
    rewrite Em in H. destruct (checked_i64 (negated neg a * radix)) as [v|] eqn:E1.
    + destruct (checked_i64 (match sgn neg with Pos => v + x | Neg => v - x end)%Z) as [v'|] eqn:E2.
      * apply (Next (a * radix + x)%Z); auto; [nia|]. apply checked_some in E1, E2. subst v v'. destruct neg; cbn [sgn negated] in *; [replace (- (a * radix + x))%Z with (- a * radix - x)%Z by lia|]; exact H.
      * left. apply Bad; [eapply err_syntax_at; eauto|]. apply (checked_none neg a radix x); auto. right. eauto.
    + left. apply Bad; [eapply err_syntax_at; eauto|]. apply (checked_none neg a radix x); auto.
  - right. exists 0, d. split; auto. split; [intros ->; discriminate|]. split; auto. apply err_syntax_at in H. rewrite Eb in H. now rewrite Nat.add_0_r.
Qed.
Lemma nth_error_skip {A} (l : list A) i k : nth_error (skipn i l) k = nth_error l (i + k).
Proof. apply nth_error_skipn. Qed.
Definition number_fault (raw : str) (sp : span) (neg : bool) (e : error) : Prop :=
  (exists r b digits pre post v, radix_of raw r b digits /\ digits = pre ++ post /\ numeral r pre v /\ ~ (i64_min <= negated neg v <= i64_max)%Z /\ err_at e sp (range_msg b)) \/
  (f64_parse raw = None /\ (exists c, In c [x2e; x2d; x2b] /\ In c raw) /\ err_at e sp (s2b "invalid float literal")) \/
  exists k c r b digits, nth_error raw k = Some c /\ radix_of raw r b digits /\ bad_digit c r /\
    err_at e (mkspan (sp_m sp + k) (sp_m sp + k + 1)) (digit_msg b).
Lemma contains_in c s : containsb c s = true -> In c s.
Proof. unfold containsb. intros H. apply existsb_exists in H as (y & Hy & E). apply byte_eqb_eq in E. now subst y. Qed.
Lemma number_err raw sp neg e : parse_literal_number source raw sp (sgn neg) = Err e -> number_fault raw sp neg e.
Proof.
  unfold parse_literal_number. destruct (parse_literal_integer source raw sp (sgn neg)) as [v|e1| |] eqn:Ei; try discriminate.
  assert (H1 : number_fault raw sp neg e1).
  { unfold parse_literal_integer in Ei.
    assert (G : forall i r b, (1 < r)%Z -> show_Z r = s2b b -> radix_of raw r b (skipn i raw) -> bind (int_fold source r i sp (sgn neg) (skipn i raw) 0 0%Z) (fun z => Ok (VInt z)) = Err e1 ->
      number_fault raw sp neg e1).
    { intros i r b Hr1 Eb Hr E. destruct (int_fold _ _ _ _ _ _ _ _) as [z|e'| |] eqn:Ef; cbn [bind] in E; try discriminate. injection E as ->.
      assert (Z0 : 0%Z = negated neg 0) by now destruct neg. rewrite Z0 in Ef.
      apply (int_fold_err r b i sp neg (skipn i raw) Hr1 Eb 0 [] 0%Z) in Ef as [(p1 & p2 & v & E & K)|(k & c & K1 & K2 & K3 & K4)]; [| |constructor|lia].
      - left. exists r, b, (skipn i raw), p1, p2, v. tauto.
      - right. right. exists (i + k), c, r, b, (skipn i raw). rewrite nth_error_skip in K1. split; auto. split; auto. split.
        + split; auto. intros d Hd. destruct (Z_lt_le_dec d r) as [L|L]; auto. exfalso. assert (E : to_digit r c = Some d) by now apply to_digit_spec. congruence.
        + cbn [Nat.add] in K4. now rewrite !Nat.add_assoc in *. }
    destruct (int_radix_cases raw) as [(b & E & Er)|[(b & E & Er)|[(b & E & Er)|(E & Er)]]]; rewrite Er in Ei.
    - refine (G 2 2%Z "2"%string _ eq_refl _ Ei); [lia|]. subst raw. constructor.
    - refine (G 2 8%Z "8"%string _ eq_refl _ Ei); [lia|]. subst raw. constructor.
    - refine (G 2 16%Z "16"%string _ eq_refl _ Ei); [lia|]. subst raw. constructor.
    - refine (G 0 10%Z "10"%string _ eq_refl _ Ei); [lia|]. now constructor. }
  destruct (parse_literal_float source raw sp (sgn neg)) as [v|e2| |] eqn:Ef; try discriminate.
  destruct (containsb x2e raw || containsb x2d raw || containsb x2b raw) eqn:Ec; intros E; injection E as <-; auto.
  right. left. unfold parse_literal_float in Ef. destruct (f64_parse raw); [discriminate|]. split; auto. split; [|eapply err_syntax_at; eauto].
  apply orb_true_iff in Ec as [Ec|Ec]; [apply orb_true_iff in Ec as [Ec|Ec]|]; apply contains_in in Ec; eexists; (split; [|exact Ec]); cbn; auto.
Qed.

Lemma unescape_err : forall n body off acc e, length body < n -> Forall scalar body ->
  unescape source (char_indices off (flat_map encode body ++ [x22])) acc = Err e ->
  exists b1 c b2, body = b1 ++ 92%N :: c :: b2 /\ ~ In c [110; 114; 116; 92; 34]%N /\
    err_at e (mkspan (off + length (flat_map encode b1) + 1) (off + length (flat_map encode b1) + 1 + length (encode c))) (s2b "unknown escape character").
Proof.
  induction n as [|n IH]; intros body off acc e Hn Hsc H; [lia|].
  destruct body as [|c body].
  - cbn [flat_map app] in H. change [x22] with (encode 34 ++ []) in H. rewrite char_indices_encode in H by (left; lia). cbn in H. discriminate.
  - cbn [length] in Hn. inversion Hsc as [|? ? Hc Hb]; subst. cbn [flat_map] in H. rewrite <- app_assoc, char_indices_encode in H by assumption. cbn [unescape] in H.
    assert (Up : forall pre body' acc', Forall scalar body' -> length body' < n ->
       unescape source (char_indices (off + length (flat_map encode pre)) (flat_map encode body' ++ [x22])) acc' = Err e ->
       exists b1 c' b2, pre ++ body' = b1 ++ 92%N :: c' :: b2 /\ ~ In c' [110; 114; 116; 92; 34]%N /\
       err_at e (mkspan (off + length (flat_map encode b1) + 1) (off + length (flat_map encode b1) + 1 + length (encode c'))) (s2b "unknown escape character")).
    { intros pre body' acc' Hs' Hl H'. apply IH in H' as (b1 & c' & b2 & -> & H1 & H2); auto. exists (pre ++ b1), c', b2. rewrite <- app_assoc. split; auto. split; auto.
      rewrite flat_map_app, app_length. now rewrite !Nat.add_assoc in *. }
    destruct (N.eqb_spec c 34) as [->|N34]; [|destruct (N.eqb_spec c 92) as [->|N92]].
    + apply (Up [34%N] body acc); auto. lia.
    + destruct body as [|x body]; [cbn in H; discriminate|]. cbn [length] in Hn. cbn [flat_map] in H. inversion Hb as [|? ? Hx Hb']; subst. rewrite <- app_assoc, char_indices_encode in H by assumption.
      assert (Up2 : forall b, unescape source (char_indices (off + len_utf8 92 + len_utf8 x) (flat_map encode body ++ [x22])) (acc ++ [b]) = Err e ->
        exists b1 c' b2, 92%N :: x :: body = b1 ++ 92%N :: c' :: b2 /\ ~ In c' [110; 114; 116; 92; 34]%N /\
        err_at e (mkspan (off + length (flat_map encode b1) + 1) (off + length (flat_map encode b1) + 1 + length (encode c'))) (s2b "unknown escape character")).
      { intros b H'. apply (Up [92%N; x] body (acc ++ [b])); auto; [lia|]. cbn [flat_map]. rewrite app_nil_r, app_length. rewrite Nat.add_assoc. exact H'. }
      destruct (N.eqb_spec x 110); [eauto|]. destruct (N.eqb_spec x 114); [eauto|]. destruct (N.eqb_spec x 116); [eauto|]. destruct (N.eqb_spec x 92); [eauto|]. destruct (N.eqb_spec x 34); [eauto|].
      assert (Hnext : exists c' it, char_indices (off + len_utf8 92 + len_utf8 x) (flat_map encode body ++ [x22]) = (off + len_utf8 92 + len_utf8 x, c') :: it).
      { destruct body as [|c2 body2]; cbn [flat_map app].
        - change [x22] with (encode 34 ++ []). rewrite char_indices_encode by (left; lia). eauto.
        - inversion Hb'; subst. rewrite <- app_assoc, char_indices_encode by assumption. eauto. }
      destruct Hnext as (c' & it & En). rewrite En in H. exists [], x, body. split; auto. split; [cbn; intuition congruence|].
      apply err_syntax_at in H. cbn [flat_map length]. rewrite Nat.add_0_r. exact H.
    + apply (Up [c] body (acc ++ encode c)); auto; [lia|]. cbn [flat_map]. rewrite app_nil_r. exact H.
Qed.

(** ** Literals in the source *)
Hypothesis Hsrc : valid_utf8 source.
Notation txt := (txt source).
Lemma skipn_plus {A} (l a b : list A) m : skipn m l = a ++ b -> skipn (m + length a) l = b.
Proof. intros E. rewrite Nat.add_comm, <- skipn_skipn, E, skipn_app, skipn_all, Nat.sub_diag. reflexivity. Qed.
Lemma txt_at m a b : skipn m source = a ++ b -> txt (mkspan m (m + length a)) = a.
Proof.
  intros E. unfold GrammarSpec.txt, sub. cbn [sp_m sp_n]. rewrite E. replace (m + length a - m) with (length a) by lia. now rewrite firstn_app, firstn_all, Nat.sub_diag, firstn_O, app_nil_r.
Qed.
Lemma string_mark sp e : tok_ok source (TString, sp) -> parse_string source sp = Err e ->
  exists sp' why, err_at e sp' why /\ marks source [(TString, sp)] sp' why.
Proof.
  intros (Hsp & Hl & Hw & _) H. destruct (Hw eq_refl) as (pp & body & Ech & Hok). cbn [fst snd] in *.
  destruct sp as [m n]. pose proof Hsp as (H1 & B1 & B2). cbn [sp_m sp_n] in *.
  set (s := sub source m n) in *.
  assert (V : valid_utf8 s) by (apply sub_valid; auto).
  assert (Hsc : Forall scalar (34 :: body ++ [34])%N) by (rewrite <- Ech; now apply chars_scalar).
  assert (Hsb : Forall scalar body). { inversion Hsc as [|? ? ? H3]; subst. apply Forall_app in H3. tauto. }
  assert (Es : s = [x22] ++ flat_map encode body ++ [x22]).
  { rewrite <- (flat_map_chars s V), Ech. change (34 :: body ++ [34])%N with ([34] ++ body ++ [34])%N. rewrite !flat_map_app. reflexivity. }
  assert (Esrc : skipn m source = s ++ skipn n source).
  { unfold s, sub. replace n with ((n - m) + m) at 2 by lia. rewrite <- skipn_skipn, firstn_skipn. reflexivity. }
  assert (Hlen : n - m = 1 + length (flat_map encode body) + 1).
  { assert (length s = n - m) by (apply sub_length; lia). rewrite Es, !app_length in H0. simpl in H0. lia. }
  unfold parse_string in H. rewrite index_span_ok in H by assumption. cbn [bind sp_m sp_n] in H. fold s in H.
  destruct (containsb x5c s).
  - rewrite Es in H. change [x22] with (encode 34) in H at 1. rewrite char_indices_encode in H by (left; lia). cbn [unescape] in H. simpl (34 =? 34)%N in H. cbv iota in H.
    change (len_utf8 34) with 1 in H. apply (unescape_err (S (length body))) in H as (b1 & c & b2 & Eb & Hc & He); [|lia|assumption].
    assert (E1 : skipn (m + 1 + length (flat_map encode b1)) source = s2b "\" ++ encode c ++ flat_map encode b2 ++ [x22] ++ skipn n source).
    { rewrite <- Nat.add_assoc, Nat.add_comm, <- skipn_skipn. rewrite Esrc, Es, Eb, flat_map_app. cbn [flat_map]. rewrite <- !app_assoc. cbn [app skipn Nat.add].
      rewrite skipn_app, skipn_all, Nat.sub_diag. reflexivity. }
    assert (E2 : length (flat_map encode body) = length (flat_map encode b1) + 1 + length (encode c) + length (flat_map encode b2)).
    { rewrite Eb, flat_map_app. cbn [flat_map]. rewrite !app_length. change (length (encode 92)) with 1. lia. }
    assert (E3 := skipn_plus _ _ _ _ E1). change (length (s2b "\")) with 1 in E3.
    eexists _, _. split; [exact He|]. apply mk_escape with c; cbn [sp_m sp_n]; try lia; auto.
    + replace (m + 1 + length (flat_map encode b1) + 1 - 1) with (m + 1 + length (flat_map encode b1)) by lia. exact (txt_at _ _ _ E1).
    + exact (txt_at _ _ _ E3).
    + rewrite Eb in Hsb. apply Forall_app in Hsb as [_ K]. inversion K as [|? ? _ K']; subst. now inversion K'.
  - exfalso. unfold usub in H. destruct (_ <? _); cbn [bind] in H; [discriminate|]. unfold slice in H. destruct (_ && _); discriminate.
Qed.
Lemma nth_sub m n k c : n <= length source -> nth_error (sub source m n) k = Some c -> m <= n -> m + k < n /\ txt (mkspan (m + k) (m + k + 1)) = [c].
Proof.
  intros Hn H Hm. assert (L : k < n - m). { assert (nth_error (sub source m n) k <> None) by congruence. apply nth_error_Some in H0. rewrite sub_length in H0; lia. }
  split; [lia|]. unfold sub in H. rewrite nth_error_firstn_lt in H by lia. rewrite nth_error_skipn in H.
  apply nth_error_split in H as (a & b & E & La). unfold GrammarSpec.txt, sub. cbn [sp_m sp_n]. rewrite E, <- La, skipn_app, skipn_all, Nat.sub_diag. cbn [app skipn].
  replace (length a + 1 - length a) with 1 by lia. reflexivity.
Qed.
Lemma number_mark sp neg e : tok_ok source (TNumber, sp) -> neg = false -> parse_literal_number source (txt sp) sp (sgn neg) = Err e ->
  exists sp' why, err_at e sp' why /\ marks source [(TNumber, sp)] sp' why.
Proof.
  intros ((H1 & _) & Hl & _) En H. cbn [fst snd] in *.
  assert (No : number_of [(TNumber, sp)] sp neg) by (left; auto).
  apply number_err in H as [(r & b & ds & pre & post & v & K1 & K2 & K3 & K4 & K5)|[(K1 & K2 & K3)|(k & c & r & b & ds & K1 & K2 & K3 & K4)]].
  - exists sp, (range_msg b). split; auto. rewrite <- (span_of_one TNumber sp) at 2. eapply mk_range; eauto.
  - exists sp, (s2b "invalid float literal"). split; auto. rewrite <- (span_of_one TNumber sp) at 2. eapply mk_float; eauto.
  - apply nth_sub in K1 as [L T]; auto. eexists _, _. split; [exact K4|]. eapply mk_digit; eauto. lia.
Qed.
Lemma signed_mark t s nsp ts (neg : bool) e : t = (if neg then TMinus else TPlus) -> ordered source ((t, s) :: (TNumber, nsp) :: ts) ->
  parse_literal_number source (txt nsp) (combine_span s nsp) (sgn neg) = Err e ->
  exists sp' why, err_at e sp' why /\ marks source [(t, s); (TNumber, nsp)] sp' why.
Proof.
  intros Ht Ho H. assert (Ec : combine_span s nsp = span_of [(t, s); (TNumber, nsp)]) by exact (combine_toks source t s [] TNumber nsp (ordered_app_l source [(t, s); (TNumber, nsp)] ts Ho)).
  assert (No : number_of [(t, s); (TNumber, nsp)] nsp neg).
  { right. exists t, s. split; auto. subst t. destruct neg; split; auto; split; auto; discriminate. }
  apply number_err in H as [(r & b & ds & pre & post & v & K1 & K2 & K3 & K4 & K5)|[(K1 & K2 & K3)|(k & c & r & b & ds & K1 & K2 & K3 & K4)]].
  - exists (combine_span s nsp), (range_msg b). split; auto. rewrite Ec. eapply mk_range; eauto.
  - exists (combine_span s nsp), (s2b "invalid float literal"). split; auto. rewrite Ec. eapply mk_float; eauto.
  - eexists _, _. split; [exact K4|]. rewrite Ec in *. change (span_of [(t, s); (TNumber, nsp)]) with (mkspan (sp_m s) (sp_n nsp)). cbn [sp_m sp_n].
    destruct Ho as (at_ & text & Hw). inversion Hw as [|? ? ? ? text' ? W1 W2 W3 W4 W5]; subst. inversion W5 as [|? ? ? ? text'' ? Y1 Y2 Y3 Y4 Y5]; subst.
    destruct Y3 as ((S2 & _) & S3 & _). cbn [fst snd] in *. apply nth_sub in K1 as [L T]; auto. eapply mk_signed; eauto.
Qed.
(** An index that is out of range. *)
Lemma digits_val s : valid_utf8 s -> Forall (fun c => ascii_digit c = true) (chars s) -> forall a, existsb (Byte.eqb x5f) s = false /\ exists v, nval 10 a s = Some v.
Proof.
  intros V. induction V as [|c s Hc Hs IH] using valid_ind; intros F a; [split; [reflexivity|eexists; reflexivity]|].
  rewrite chars_encode in F by assumption. inversion F as [|? ? Fc Fs]; subst.
  assert (D : In c [48; 49; 50; 51; 52; 53; 54; 55; 56; 57]%N). { unfold ascii_digit in Fc. rewrite andb_true_iff, !N.leb_le in Fc. cbn [In]. lia. }
  cbn [In] in D.
  repeat match type of D with ?n = _ \/ _ => destruct D as [<-|D]; [destruct (IH Fs (a * 10 + (Z.of_N n - 48))%Z) as [U (v & Ev)]; split; [exact U|exists v; exact Ev]|] end.
  contradiction.
Qed.
Lemma index_mark sp : tok_ok source (TIndex, sp) -> parse_usize (txt sp) = None -> exists v, numeral 10 (txt sp) v /\ (u64_max < v)%Z.
Proof.
  intros Ht E. pose proof (tok_txt_valid source Hsrc _ _ Ht) as V. destruct Ht as (Hsp & Hl & Hw & _). destruct (Hw eq_refl) as (pp & _ & Hne & HL). cbn [fst snd] in *.
  change (sub source (sp_m sp) (sp_n sp)) with (txt sp) in *. destruct (digits_val _ V HL 0%Z) as [U (v & Ev)]. exists v. split; [now apply numeral_nval|].
  unfold parse_usize in E. destruct (txt sp) as [|c s]; [contradiction|]. rewrite parse_usize_loop_spec, Ev, U in E by (unfold u64_max; lia).
  destruct (Z.leb_spec v u64_max); [discriminate|lia].
Qed.
End LitBlame.
