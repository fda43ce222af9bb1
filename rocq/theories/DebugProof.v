(** The quoted form of text can be read in one way only, and [Debug] writes it. *)
From Coq Require Import HexadecimalN ZifyBool ZifyNat ZifyN.
From Verif Require Import Base Utf8 Ext Errors DecimalSpec DecimalProof MessageSpec DebugSpec Debug.

(** ** Reading *)
(** One character of quoted text. *)
Inductive piece : N -> str -> Prop :=
| pc_plain c : scalar c -> (32 <= c -> c <> 34 -> c <> 92 -> c <> 127 -> piece c (encode c))%N
| pc_short x c : In (x, c) short_escapes -> piece c [x5c; x]
| pc_hex h c : scalar c -> h <> [] -> hex_value h 0 c -> piece c (s2b "\u{" ++ h ++ s2b "}").
Lemma reads_inv q s : reads q s -> (q = [] /\ s = []) \/ exists c p q1 s1, piece c p /\ q = p ++ q1 /\ s = encode c ++ s1 /\ reads q1 s1.
Proof.
  intros H. destruct H; [now left|right|right|right].
  - exists c, (encode c), q, s. repeat split; auto. now constructor.
  - exists c, [x5c; x], q, s. repeat split; auto. now constructor.
  - exists c, (s2b "\u{" ++ h ++ s2b "}"), q, s. repeat split; auto; [now constructor|now rewrite <- !app_assoc].
Qed.
Lemma byte_of_eq n m : (n < 256)%N -> byte_of n = m -> n = byte_N m.
Proof. intros H <-. now rewrite byte_N_of. Qed.
Local Ltac Zify.zify_post_hook ::= Z.div_mod_to_equations.
Lemma plain_first c : scalar c -> (32 <= c)%N -> c <> 34%N -> c <> 92%N -> exists b bs, encode c = b :: bs /\ b <> x22 /\ b <> x5c /\ b <> x0a.
Proof.
  intros H H1 H2 H3. unfold encode, scalar in *.
  destruct (N.ltb_spec c 0x80); [|destruct (N.ltb_spec c 0x800); [|destruct (N.ltb_spec c 0x10000)]];
    (eexists; eexists; split; [reflexivity|]; repeat split; intros K; apply byte_of_eq in K; change (byte_N x22) with 34%N in *; change (byte_N x5c) with 92%N in *; change (byte_N x0a) with 10%N in *; lia).
Qed.
Lemma split_at (P : byte -> Prop) a a' x x' r r' : Forall P a -> Forall P a' -> ~ P x -> ~ P x' -> a ++ x :: r = a' ++ x' :: r' -> a = a' /\ x :: r = x' :: r'.
Proof.
  intros Ha. revert a'. induction Ha as [|b a Hb Ha IH]; intros a' Ha' Hx Hx' E.
  - destruct Ha' as [|b' a' Hb' Ha']; [now split|]. cbn in E. inversion E; subst. contradiction.
  - destruct Ha' as [|b' a' Hb' Ha']; cbn in E; inversion E; subst; [contradiction|]. destruct (IH a' Ha' Hx Hx' H1) as [-> K]. now split.
Qed.
Definition is_hex (b : byte) : Prop := exists v, hex_digit b v.
Lemma hex_is s a n : hex_value s a n -> Forall is_hex s.
Proof. induction 1; constructor; auto. now exists v. Qed.
Lemma hex_fun s a n n' : hex_value s a n -> hex_value s a n' -> n = n'.
Proof.
  intros H. revert n'. induction H as [a|b v s a n Hd H IH]; intros n' H'; inversion H'; subst; [reflexivity|].
  apply IH. assert (v0 = v) as -> by (unfold hex_digit in *; lia). assumption.
Qed.
Lemma brace_not_hex : ~ is_hex x7d.
Proof. intros [v H]. unfold hex_digit in H. cbn in H. lia. Qed.
Lemma short_fun x c c' : In (x, c) short_escapes -> In (x, c') short_escapes -> c = c'.
Proof. intros H H'. repeat (destruct H as [E|H]; [inversion E; subst; repeat (destruct H' as [E'|H']; [inversion E'; subst; reflexivity|]); destruct H'|]). destruct H. Qed.
Lemma short_not_u c : ~ In (x75, c) short_escapes.
Proof. intros H. repeat (destruct H as [E|H]; [discriminate E|]). destruct H. Qed.
Lemma piece_prefix c p c' p' r r' : piece c p -> piece c' p' -> p ++ r = p' ++ r' -> c = c' /\ r = r'.
Proof.
  intros H H' E. destruct H as [c Hc H1 H2 H3 H4|x c Hx|h c Hc Hn Hh], H' as [c' Hc' H1' H2' H3' H4'|x' c' Hx'|h' c' Hc' Hn' Hh'].
  - now apply encode_app_inj in E.
  - destruct (plain_first c Hc H1 H2 H3) as (b & bs & Eb & _ & Nb & _). rewrite Eb in E. cbn in E. inversion E. congruence.
  - destruct (plain_first c Hc H1 H2 H3) as (b & bs & Eb & _ & Nb & _). rewrite Eb in E. cbn in E. inversion E. congruence.
  - destruct (plain_first c' Hc' H1' H2' H3') as (b & bs & Eb & _ & Nb & _). rewrite Eb in E. cbn in E. inversion E. congruence.
  - cbn in E. inversion E; subst. split; [exact (short_fun _ _ _ Hx Hx')|reflexivity].
  - cbn in E. inversion E; subst. now apply short_not_u in Hx.
  - destruct (plain_first c' Hc' H1' H2' H3') as (b & bs & Eb & _ & Nb & _). rewrite Eb in E. cbn in E. inversion E. congruence.
  - cbn in E. inversion E; subst. now apply short_not_u in Hx'.
  - rewrite <- !app_assoc in E. apply app_inv_head in E. cbn [app] in E. change (s2b "}" ++ r) with (x7d :: r) in E. change (s2b "}" ++ r') with (x7d :: r') in E.
    destruct (split_at is_hex _ _ _ _ _ _ (hex_is _ _ _ Hh) (hex_is _ _ _ Hh') brace_not_hex brace_not_hex E) as [-> K].
    split; [exact (hex_fun _ _ _ _ Hh Hh')|]. now inversion K.
Qed.
Lemma piece_first c p r : piece c p -> hd_error (p ++ r) <> Some x22 /\ p <> [].
Proof.
  intros [c' Hc H1 H2 H3 H4|x c' Hx|h c' Hc Hn Hh].
  - destruct (plain_first c' Hc H1 H2 H3) as (b & bs & -> & Nb & _). split; [|discriminate]. cbn. intros E. apply Nb. now inversion E.
  - split; discriminate.
  - split; discriminate.
Qed.
(** Quoted text ends at the first quote that is not escaped, and means one text. *)
Lemma reads_prefix q s : reads q s -> forall q' s' r r', reads q' s' -> q ++ x22 :: r = q' ++ x22 :: r' -> s = s' /\ r = r'.
Proof.
  revert s. induction q as [q IH] using (well_founded_induction (Wf_nat.well_founded_ltof _ (@length byte))).
  intros s H q' s' r r' H' E. apply reads_inv in H as [[-> ->]|(c & p & q1 & s1 & Hp & -> & -> & Hr)]; apply reads_inv in H' as [[-> ->]|(c' & p' & q1' & s1' & Hp' & -> & -> & Hr')].
  - cbn in E. inversion E. now split.
  - rewrite <- app_assoc in E. destruct (piece_first c' p' (q1' ++ x22 :: r') Hp') as [K _]. rewrite <- E in K. now elim K.
  - rewrite <- app_assoc in E. destruct (piece_first c p (q1 ++ x22 :: r) Hp) as [K _]. rewrite E in K. now elim K.
  - rewrite <- !app_assoc in E. destruct (piece_prefix _ _ _ _ _ _ Hp Hp' E) as [-> E'].
    destruct (IH q1) with (s := s1) (q' := q1') (s' := s1') (r := r) (r' := r') as [-> ->]; auto.
    unfold Wf_nat.ltof. rewrite app_length. destruct (piece_first c' p [] Hp) as [_ K]. destruct p; [now elim K|cbn; lia].
Qed.

(** ** Writing *)
Lemma hex_bytes_acc d : forall p, hex_value (hex_bytes d) (Npos p) (Npos (Pos.of_hex_uint_acc d p)).
Proof.
  induction d as [|d IH|d IH|d IH|d IH|d IH|d IH|d IH|d IH|d IH|d IH|d IH|d IH|d IH|d IH|d IH|d IH]; intros p; cbn [hex_bytes Pos.of_hex_uint_acc]; [constructor|..];
    (eapply hv_digit; [unfold hex_digit; cbn; first [left; split; [lia|reflexivity] | right; split; [lia|reflexivity]]|]);
    match goal with |- hex_value _ ?a (Npos (Pos.of_hex_uint_acc _ ?q)) => replace a with (Npos q) by (cbn; lia) end; apply IH.
Qed.
Lemma hex_bytes_value d : hex_value (hex_bytes d) 0 (N.of_hex_uint d).
Proof.
  unfold N.of_hex_uint.
  induction d as [|d IH|d IH|d IH|d IH|d IH|d IH|d IH|d IH|d IH|d IH|d IH|d IH|d IH|d IH|d IH|d IH]; cbn [hex_bytes Pos.of_hex_uint]; [constructor|..];
    (eapply hv_digit; [unfold hex_digit; cbn; first [left; split; [lia|reflexivity] | right; split; [lia|reflexivity]]|]); cbn; first [exact IH | apply hex_bytes_acc].
Qed.
Lemma hex_bytes_nil d : hex_bytes d = [] -> d = Hexadecimal.Nil.
Proof. destruct d; [reflexivity|discriminate..]. Qed.

Section Debug.
Context `{X : Ext}.
Variable printable : N -> bool.
Variable io_debug : N -> str.
Lemma escape_piece c : scalar c -> piece c (escape_char printable c).
Proof.
  intros Hc. unfold escape_char.
  destruct (N.eqb_spec c 0) as [->|N0]; [apply (pc_short x30); cbn; tauto|].
  destruct (N.eqb_spec c 9) as [->|N9]; [apply (pc_short x74); cbn; tauto|].
  destruct (N.eqb_spec c 13) as [->|N13]; [apply (pc_short x72); cbn; tauto|].
  destruct (N.eqb_spec c 10) as [->|N10]; [apply (pc_short x6e); cbn; tauto|].
  destruct (N.eqb_spec c 34) as [->|N34]; [apply (pc_short x22); cbn; tauto|].
  destruct (N.eqb_spec c 92) as [->|N92]; [apply (pc_short x5c); cbn; tauto|].
  destruct (plain_char printable c) eqn:Ep.
  - unfold plain_char in Ep. constructor; auto; destruct (N.ltb_spec c 128); try lia.
  - apply pc_hex; [exact Hc| |].
    + intros K. apply hex_bytes_nil in K. apply N0. rewrite <- (HexadecimalN.Unsigned.of_to c), K. reflexivity.
    + rewrite <- (HexadecimalN.Unsigned.of_to c) at 2. apply hex_bytes_value.
Qed.
Lemma piece_reads c p q s : piece c p -> reads q s -> reads (p ++ q) (encode c ++ s).
Proof.
  intros [c' Hc H1 H2 H3 H4|x c' Hx|h c' Hc Hn Hh] Hr; [now constructor|now apply reads_short|]. rewrite <- !app_assoc. now apply reads_hex.
Qed.
Lemma debug_reads s : valid_utf8 s -> reads (flat_map (escape_char printable) (chars s)) s.
Proof.
  intros H. induction H as [|c s Hc Hs IH] using valid_ind; [constructor|]. rewrite chars_encode by assumption. cbn [flat_map].
  apply piece_reads; [now apply escape_piece|assumption].
Qed.
Lemma debug_text o : (forall s, o = Some s -> valid_utf8 s) -> shown_text o (debug_option (debug_str printable) o).
Proof.
  intros H. destruct o as [s|]; [|constructor]. unfold debug_option, debug_str. rewrite <- !app_assoc. cbn [app].
  change (shown_text (Some s) (s2b "Some(" ++ [x22] ++ flat_map (escape_char printable) (chars s) ++ [x22] ++ s2b ")")). constructor. now apply debug_reads, H.
Qed.
Lemma debug_place o : (forall p, o = Some p -> valid_utf8 (p_text p)) -> shown_place o (debug_option (debug_pretty printable) o).
Proof.
  intros H. destruct o as [p|]; [|constructor]. unfold debug_option, debug_pretty, debug_str. rewrite <- !app_assoc.
  pose proof (place_some p _ _ _ _ (show_natural _) (show_natural _) (show_natural _) (debug_reads _ (H p eq_refl))) as K. exact K.
Qed.
Lemma debug_shown e : texts_valid e -> shown_error io_debug e (debug_fields printable io_debug e).
Proof.
  intros (H1 & H2 & H3). unfold debug_fields. do 4 eexists. split; [|split; [apply debug_text, H1|split; [apply debug_text, H2|split; [apply debug_place, H3|reflexivity]]]].
  destruct (e_kind e); constructor.
Qed.
End Debug.
