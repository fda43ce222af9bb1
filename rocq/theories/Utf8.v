(** UTF-8: Rust's [str]/[char] from core.  [char] is modelled by its scalar
    value in [N]. *)
From Verif Require Import Base.
From Coq Require Import ZifyBool ZifyNat ZifyN.

Definition byte_of (n : N) : byte :=
  match Byte.of_N n with Some b => b | None => x00 end.

Local Open Scope N_scope.

(** Unicode scalar values, the values of Rust's [char]. *)
Definition scalar (c : N) : Prop := c < 0xD800 \/ (0xE000 <= c /\ c < 0x110000).

Definition scalarb (c : N) : bool := (c <? 0xD800) || ((0xE000 <=? c) && (c <? 0x110000)).

(** [char::encode_utf8] *)
Definition encode (c : N) : str :=
  if c <? 0x80 then [byte_of c]
  else if c <? 0x800 then [byte_of (192 + c / 64); byte_of (128 + c mod 64)]
  else if c <? 0x10000 then
    [byte_of (224 + c / 4096); byte_of (128 + (c / 64) mod 64); byte_of (128 + c mod 64)]
  else
    [byte_of (240 + c / 262144); byte_of (128 + (c / 4096) mod 64);
     byte_of (128 + (c / 64) mod 64); byte_of (128 + c mod 64)].

(** The type invariant of [str]. *)
Definition valid_utf8 (s : str) : Prop :=
  exists cs, Forall scalar cs /\ s = flat_map encode cs.

(** [str::char_indices], as a list of (offset, char), offsets starting at [off].
    (core decodes without validation; on a valid [str] this is the decoder.) *)
Fixpoint char_indices (off : nat) (s : str) {struct s} : list (nat * N) :=
  match s with
  | [] => []
  | b0 :: s1 =>
    let n0 := byte_N b0 in
    if n0 <? 0x80 then (off, n0) :: char_indices (off + 1)%nat s1
    else match s1 with
    | [] => []
    | b1 :: s2 =>
      let n1 := byte_N b1 in
      if n0 <? 0xE0 then
        (off, (n0 mod 32) * 64 + n1 mod 64) :: char_indices (off + 2)%nat s2
      else match s2 with
      | [] => []
      | b2 :: s3 =>
        let n2 := byte_N b2 in
        if n0 <? 0xF0 then
          (off, (n0 mod 16) * 4096 + (n1 mod 64) * 64 + n2 mod 64)
            :: char_indices (off + 3)%nat s3
        else match s3 with
        | [] => []
        | b3 :: s4 =>
          let n3 := byte_N b3 in
          (off, (n0 mod 8) * 262144 + (n1 mod 64) * 4096 + (n2 mod 64) * 64 + n3 mod 64)
            :: char_indices (off + 4)%nat s4
        end
      end
    end
  end.

(** [str::chars] *)
Definition chars (s : str) : list N := map snd (char_indices 0 s).

(** [char::len_utf8] *)
Definition len_utf8 (c : N) : nat := length (encode c).

(** [char::is_whitespace]: the Unicode White_Space property. *)
Definition is_white_space (c : N) : bool :=
  ((9 <=? c) && (c <=? 13)) || (c =? 32) || (c =? 0x85) || (c =? 0xA0) || (c =? 0x1680)
  || ((0x2000 <=? c) && (c <=? 0x200A)) || (c =? 0x2028) || (c =? 0x2029)
  || (c =? 0x202F) || (c =? 0x205F) || (c =? 0x3000).

(** [str::trim_start]: the number of bytes removed from the front. *)
Fixpoint trim_start_chars (cs : list N) : nat :=
  match cs with
  | [] => 0%nat
  | c :: cs' => if is_white_space c then (len_utf8 c + trim_start_chars cs')%nat else 0%nat
  end.
Definition trim_start (s : str) : str := skipn (trim_start_chars (chars s)) s.

(** [str::trim_end]: the number of bytes removed from the end, computed on the
    reversed list of characters. *)
Definition trim_end (s : str) : str :=
  firstn (length s - trim_start_chars (rev (chars s)))%nat s.

Local Close Scope N_scope.

(** ** Facts about the encoding *)

Lemma byte_N_lt b : (byte_N b < 256)%N.
Proof. unfold byte_N. pose proof (Byte.to_N_bounded b). lia. Qed.

Lemma byte_N_of n : (n < 256)%N -> byte_N (byte_of n) = n.
Proof.
  intros H. unfold byte_N, byte_of.
  destruct (Byte.of_N n) as [b|] eqn:E.
  - now apply Byte.to_of_N.
  - apply Byte.of_N_None_iff in E. lia.
Qed.

Lemma byte_of_N b : byte_of (byte_N b) = b.
Proof. unfold byte_of, byte_N. now rewrite Byte.of_to_N. Qed.

Lemma byte_N_inj a b : byte_N a = byte_N b -> a = b.
Proof. intros H. rewrite <- (byte_of_N a), <- (byte_of_N b). congruence. Qed.

Lemma scalarb_spec c : scalarb c = true <-> scalar c.
Proof. unfold scalarb, scalar. lia. Qed.

Ltac Zify.zify_post_hook ::= Z.div_mod_to_equations.

Lemma encode_shape c : scalar c ->
  exists b bs, encode c = b :: bs /\ is_cont b = false /\ Forall (fun x => is_cont x = true) bs.
Proof.
  intros H. unfold encode.
  destruct (N.ltb_spec c 0x80); [|destruct (N.ltb_spec c 0x800); [|destruct (N.ltb_spec c 0x10000)]];
    (eexists; eexists; split; [reflexivity|]; split;
     [| repeat constructor]);
    unfold is_cont; rewrite byte_N_of; unfold scalar in H; lia.
Qed.

Lemma encode_nonempty c : encode c <> [].
Proof.
  unfold encode.
  destruct (N.ltb c 0x80); [|destruct (N.ltb c 0x800); [|destruct (N.ltb c 0x10000)]]; discriminate.
Qed.

Lemma len_utf8_pos c : 0 < len_utf8 c.
Proof. unfold len_utf8. pose proof (encode_nonempty c). destruct (encode c); simpl; [congruence|lia]. Qed.

Lemma char_indices_encode c s off : scalar c ->
  char_indices off (encode c ++ s) = (off, c) :: char_indices (off + len_utf8 c) s.
Proof.
  intros H. unfold len_utf8, encode.
  destruct (N.ltb_spec c 0x80) as [H1|H1].
  { cbn [app char_indices]. rewrite byte_N_of by lia.
    destruct (N.ltb_spec c 0x80); [|lia]. reflexivity. }
  destruct (N.ltb_spec c 0x800) as [H2|H2].
  { cbn [app char_indices length]. rewrite !byte_N_of by lia.
    destruct (N.ltb_spec (192 + c / 64) 0x80); [lia|].
    destruct (N.ltb_spec (192 + c / 64) 0xE0); [|lia].
    f_equal; f_equal; lia. }
  destruct (N.ltb_spec c 0x10000) as [H3|H3].
  { cbn [app char_indices length]. rewrite !byte_N_of by lia.
    destruct (N.ltb_spec (224 + c / 4096) 0x80); [lia|].
    destruct (N.ltb_spec (224 + c / 4096) 0xE0); [lia|].
    destruct (N.ltb_spec (224 + c / 4096) 0xF0); [|lia].
    f_equal; f_equal; lia. }
  { cbn [app char_indices length]. unfold scalar in H. rewrite !byte_N_of by lia.
    destruct (N.ltb_spec (240 + c / 262144) 0x80); [lia|].
    destruct (N.ltb_spec (240 + c / 262144) 0xE0); [lia|].
    destruct (N.ltb_spec (240 + c / 262144) 0xF0); [lia|].
    f_equal; f_equal; lia. }
Qed.

Ltac Zify.zify_post_hook ::= idtac.

Lemma valid_nil : valid_utf8 [].
Proof. exists []. split; [constructor|reflexivity]. Qed.

Lemma valid_app a b : valid_utf8 a -> valid_utf8 b -> valid_utf8 (a ++ b).
Proof.
  intros (ca & Ha & ->) (cb & Hb & ->). exists (ca ++ cb). split.
  - now apply Forall_app.
  - now rewrite flat_map_app.
Qed.

Lemma valid_encode c : scalar c -> valid_utf8 (encode c).
Proof. intros H. exists [c]. split; [constructor; [exact H|constructor]|]. simpl. now rewrite app_nil_r. Qed.

Lemma valid_cons_inv b s : valid_utf8 (b :: s) ->
  exists c r, scalar c /\ valid_utf8 r /\ b :: s = encode c ++ r.
Proof.
  intros (cs & Hcs & E). destruct cs as [|c cs]; [discriminate|].
  inversion Hcs; subst. exists c, (flat_map encode cs). repeat split; auto.
  now exists cs.
Qed.

(** Induction on a valid string, one char at a time. *)
Lemma valid_ind (P : str -> Prop) :
  P [] -> (forall c s, scalar c -> valid_utf8 s -> P s -> P (encode c ++ s)) ->
  forall s, valid_utf8 s -> P s.
Proof.
  intros H0 H1 s (cs & Hcs & ->). induction Hcs as [|c cs Hc Hcs IH]; simpl; auto.
  apply H1; auto. now exists cs.
Qed.

Lemma encode_app_inj c c' s s' : scalar c -> scalar c' ->
  encode c ++ s = encode c' ++ s' -> c = c' /\ s = s'.
Proof.
  intros Hc Hc' E.
  assert (E2 := f_equal (char_indices 0) E).
  rewrite !char_indices_encode in E2 by assumption.
  inversion E2; subst. split; [reflexivity|]. now apply app_inv_head in E.
Qed.

(** UTF-8 is prefix free: removing a valid prefix leaves a valid string. *)
Lemma valid_app_inv_l a b : valid_utf8 a -> valid_utf8 (a ++ b) -> valid_utf8 b.
Proof.
  intros Ha. revert b. induction Ha as [|c s Hc Hs IH] using valid_ind; intros b Hab; auto.
  apply IH. rewrite <- app_assoc in Hab.
  pose proof (encode_nonempty c) as Hn.
  destruct Hab as (cs & Hcs & E). destruct cs as [|c' cs]; simpl in E.
  - apply app_eq_nil in E as [E _]. contradiction.
  - inversion Hcs; subst. apply encode_app_inj in E as [_ E]; auto.
    rewrite E. now exists cs.
Qed.

Lemma char_indices_off s off k : valid_utf8 s ->
  char_indices (off + k) s = map (fun p => (fst p + k, snd p)) (char_indices off s).
Proof.
  intros H. revert off. induction H as [|c s Hc Hs IH] using valid_ind; intros off; auto.
  rewrite !char_indices_encode by assumption. simpl. f_equal.
  rewrite <- IH. f_equal. lia.
Qed.

Lemma chars_encode c s : scalar c -> valid_utf8 s -> chars (encode c ++ s) = c :: chars s.
Proof.
  intros Hc Hs. unfold chars. rewrite char_indices_encode by assumption. simpl. f_equal.
  change (len_utf8 c) with (0 + len_utf8 c). rewrite char_indices_off by assumption.
  rewrite map_map. reflexivity.
Qed.

Lemma chars_app a b : valid_utf8 a -> valid_utf8 b -> chars (a ++ b) = chars a ++ chars b.
Proof.
  intros Ha Hb. induction Ha as [|c s Hc Hs IH] using valid_ind; auto.
  rewrite <- app_assoc. rewrite !chars_encode; auto using valid_app. simpl. congruence.
Qed.

Lemma chars_flat_map cs : Forall scalar cs -> chars (flat_map encode cs) = cs.
Proof.
  intros H; induction H as [|c cs Hc Hcs IH]; [reflexivity|].
  simpl. rewrite chars_encode; auto; [congruence|]. now exists cs.
Qed.

Lemma flat_map_chars s : valid_utf8 s -> flat_map encode (chars s) = s.
Proof. intros (cs & H & ->). now rewrite chars_flat_map. Qed.

Lemma chars_scalar s : valid_utf8 s -> Forall scalar (chars s).
Proof. intros (cs & H & ->). now rewrite chars_flat_map. Qed.

(** ** Character boundaries *)

Lemma boundary_0 s : boundary s 0 = true.
Proof. unfold boundary. destruct s; simpl; auto. apply orb_true_r. Qed.

Lemma boundary_len s : boundary s (length s) = true.
Proof.
  unfold boundary. destruct (nth_error s (length s)) eqn:E.
  - assert (length s < length s) by (apply nth_error_Some; congruence). lia.
  - apply Nat.eqb_refl.
Qed.

Lemma boundary_le s i : boundary s i = true -> i <= length s.
Proof.
  unfold boundary. destruct (nth_error s i) eqn:E; intros H.
  - assert (i < length s) by (apply nth_error_Some; congruence). lia.
  - apply Nat.eqb_eq in H. lia.
Qed.

Lemma valid_hd_not_cont b s : valid_utf8 (b :: s) -> is_cont b = false.
Proof.
  intros H. apply valid_cons_inv in H as (c & r & Hc & Hr & E).
  destruct (encode_shape c Hc) as (b' & bs & Eb & Hb & _). rewrite Eb in E.
  simpl in E. congruence.
Qed.

Lemma boundary_app a b : valid_utf8 b -> boundary (a ++ b) (length a) = true.
Proof.
  intros H. unfold boundary. destruct b as [|x b].
  - rewrite app_nil_r. destruct (nth_error a (length a)) eqn:E.
    + assert (length a < length a) by (apply nth_error_Some; congruence). lia.
    + apply Nat.eqb_refl.
  - rewrite nth_error_app2 by lia. rewrite Nat.sub_diag. simpl.
    apply valid_hd_not_cont in H. now rewrite H.
Qed.

Lemma boundary_split s i : valid_utf8 s -> boundary s i = true ->
  valid_utf8 (firstn i s) /\ valid_utf8 (skipn i s).
Proof.
  intros H. revert i. induction H as [|c s Hc Hs IH] using valid_ind; intros i Hb.
  - destruct i; simpl; split; apply valid_nil.
  - destruct (Nat.lt_ge_cases i (length (encode c))) as [Hi|Hi].
    + destruct (Nat.eq_dec i 0) as [->|Hi0].
      * simpl. split; [apply valid_nil|]. apply valid_app; auto using valid_encode.
      * exfalso. unfold boundary in Hb. rewrite nth_error_app1 in Hb by assumption.
        destruct (encode_shape c Hc) as (b & bs & Eb & _ & Hbs).
        rewrite Eb in Hb, Hi. destruct i as [|i]; [lia|]. simpl in Hb.
        destruct (nth_error bs i) as [x|] eqn:E.
        -- apply nth_error_In in E. rewrite Forall_forall in Hbs.
           rewrite (Hbs x E) in Hb. discriminate.
        -- apply nth_error_None in E. simpl in Hi. lia.
    + assert (Hb' : boundary s (i - length (encode c)) = true).
      { unfold boundary in *. rewrite nth_error_app2 in Hb by assumption.
        destruct (nth_error s (i - length (encode c))) as [x|] eqn:E.
        - destruct (is_cont x) eqn:Ex; simpl in *; auto.
          apply Nat.eqb_eq in Hb. subst i. lia.
        - rewrite app_length in Hb. apply Nat.eqb_eq in Hb. apply Nat.eqb_eq. lia. }
      destruct (IH _ Hb') as [H1 H2].
      rewrite firstn_app, skipn_app, firstn_all2, skipn_all2 by lia. simpl.
      split; auto. apply valid_app; auto using valid_encode.
Qed.

Lemma boundary_of_valid s i : i <= length s -> valid_utf8 (skipn i s) -> boundary s i = true.
Proof.
  intros Hi Hv. pose proof (boundary_app (firstn i s) (skipn i s) Hv) as H.
  now rewrite firstn_skipn, (firstn_length_le s Hi) in H.
Qed.

Lemma ascii_valid s : Forall (fun b => (byte_N b < 128)%N) s -> valid_utf8 s.
Proof.
  induction 1 as [|b s Hb Hs IH]; [apply valid_nil|].
  change (b :: s) with ([b] ++ s). apply valid_app; auto.
  exists [byte_N b]. split.
  - constructor; [|constructor]. left. lia.
  - simpl. unfold encode. destruct (N.ltb_spec (byte_N b) 0x80); [|lia].
    now rewrite byte_of_N.
Qed.

Definition asciib (s : str) : bool := forallb (fun b => (byte_N b <? 128)%N) s.

Lemma asciib_valid s : asciib s = true -> valid_utf8 s.
Proof.
  unfold asciib. rewrite forallb_forall. intros H. apply ascii_valid.
  apply Forall_forall. intros b Hb. specialize (H b Hb). simpl in H. lia.
Qed.

Lemma sub_valid s m n : valid_utf8 s -> m <= n -> boundary s m = true -> boundary s n = true ->
  valid_utf8 (sub s m n).
Proof.
  intros Hs Hmn Hm Hn. unfold sub.
  destruct (boundary_split s m Hs Hm) as [H1 H2].
  assert (Hb : boundary (skipn m s) (n - m) = true).
  { apply boundary_le in Hn as Hle. apply boundary_of_valid.
    - rewrite skipn_length. lia.
    - rewrite skipn_skipn. replace (n - m + m) with n by lia.
      now apply boundary_split. }
  now apply boundary_split.
Qed.

Lemma slice_Ok {E} s m n : m <= n -> boundary s m = true -> boundary s n = true ->
  @slice E s m n = Ok (sub s m n).
Proof.
  intros H1 H2 H3. unfold slice. rewrite H2, H3.
  apply boundary_le in H3. 
  rewrite (proj2 (Nat.leb_le m n)) by assumption.
  rewrite (proj2 (Nat.leb_le n (length s))) by assumption. reflexivity.
Qed.

Lemma slice_inv {E} s m n x : @slice E s m n = Ok x ->
  m <= n /\ boundary s m = true /\ boundary s n = true /\ x = sub s m n.
Proof.
  unfold slice. destruct (_ && _) eqn:H; [|discriminate].
  rewrite !andb_true_iff in H. destruct H as [[[H1 H2] H3] H4].
  apply Nat.leb_le in H1. intros [= <-]. auto.
Qed.

Lemma slice_from_Ok {E} s m : boundary s m = true -> @slice_from E s m = Ok (skipn m s).
Proof.
  intros H. unfold slice_from. rewrite H. apply boundary_le in H.
  now rewrite (proj2 (Nat.leb_le m (length s))).
Qed.

Lemma sub_length s m n : m <= n -> n <= length s -> length (sub s m n) = n - m.
Proof. intros H1 H2. unfold sub. rewrite firstn_length, skipn_length. lia. Qed.

Lemma sub_split s m k n : m <= k -> k <= n -> sub s m n = sub s m k ++ sub s k n.
Proof.
  intros H1 H2. unfold sub.
  rewrite <- (firstn_skipn (k - m) (firstn (n - m) (skipn m s))).
  rewrite firstn_firstn, skipn_firstn_comm, skipn_skipn.
  f_equal; f_equal; try lia. f_equal. lia.
Qed.

Lemma sub_nil s m : sub s m m = [].
Proof. unfold sub. now rewrite Nat.sub_diag. Qed.

Lemma sub_all s : sub s 0 (length s) = s.
Proof. unfold sub. rewrite Nat.sub_0_r. simpl. apply firstn_all. Qed.

Lemma sub_to_end s m : sub s m (length s) = skipn m s.
Proof. unfold sub. apply firstn_all2. rewrite skipn_length. lia. Qed.
