(** The formatter of examples/escape_html.rs. *)
From Verif Require Import Base Utf8 Ext Errors Value Fmt DecimalSpec DecimalProof OriginSpec WriteSpec EscapeSpec.

Section Escape.
Context `{X : Ext}.

(** examples/escape_html.rs 49, 51-58: the bytes that are matched, and what is written for each *)
Definition escape_byte (b : byte) : option str :=
  match b with
  | x3e => Some (s2b "&gt;")
  | x3c => Some (s2b "&lt;")
  | x26 => Some (s2b "&amp;")
  | x27 => Some (s2b "&#39;")
  | x22 => Some (s2b "&quot;")
  | _ => None
  end.
(** examples/escape_html.rs 46-68: the loop over the bytes of [s], [rest] being those not seen yet;
    a slice that is not at character boundaries panics; a failed write is returned at once *)
Fixpoint escape_loop (s rest : str) (i last : nat) : outcome error fmt_prog :=
  match rest with
  | [] => if last <? length s then let* c := slice_from s last in Ok (FWrite c FDone (FFail None)) else Ok FDone
  | b :: rest' =>
    match escape_byte b with
    | Some e =>
      let* c := slice s last i in
      let* p := escape_loop s rest' (i + 1) (i + 1) in
      Ok (FWrite c (FWrite e p (FFail None)) (FFail None))
    | None => escape_loop s rest' (i + 1) last
    end
  end.
(** examples/escape_html.rs 37-44, [fn escape_html] (that it does not panic is
    [escape_never_panics] below) *)
Definition escape_html : formatter := fun v =>
  match v with
  | VStr s => match escape_loop s s 0 0 with Ok p => p | _ => FFail None end
  | v => fmt_default v
  end.

(** What it writes *)
Definition html1 (b : byte) : str := match escape_byte b with Some e => e | None => [b] end.
Definition html (s : str) : str := flat_map html1 s.
Lemma html_app a b : html (a ++ b) = html a ++ html b.
Proof. apply flat_map_app. Qed.
Lemma escape_entity b e : escape_byte b = Some e <-> entity b e.
Proof.
  split.
  - destruct b; cbn; intros H; try discriminate; injection H as <-; constructor.
  - destruct 1; reflexivity.
Qed.
Lemma escape_none b : escape_byte b = None -> forall e, ~ entity b e.
Proof. intros H e K. apply escape_entity in K. congruence. Qed.
Definition plain (s : str) : Prop := forall b e, In b s -> ~ entity b e.
Lemma html_plain s : plain s -> html s = s.
Proof.
  induction s as [|b s IH]; intros H; cbn; [reflexivity|]. unfold html1. destruct (escape_byte b) as [e|] eqn:E.
  - apply escape_entity in E. now destruct (H b e (or_introl eq_refl)).
  - cbn. f_equal. apply IH. intros c e K. apply H. now right.
Qed.
Lemma escape_ascii b e : escape_byte b = Some e -> is_cont b = false /\ (byte_N b < 128)%N.
Proof. intros H. apply escape_entity in H. destruct H; vm_compute; auto. Qed.
Lemma boundary_mid a (b : byte) c : is_cont b = false -> boundary (a ++ b :: c) (length a) = true.
Proof. intros H. unfold boundary. rewrite nth_error_app2, Nat.sub_diag by lia. cbn. now rewrite H. Qed.
Lemma valid_tail b s : (byte_N b < 128)%N -> valid_utf8 (b :: s) -> valid_utf8 s.
Proof.
  intros Hb H. apply (valid_app_inv_l [b] s); [|exact H]. apply ascii_valid. constructor; [exact Hb|constructor].
Qed.
(** The chunks written, when no write fails *)
Inductive wrote : fmt_prog -> list str -> Prop :=
| wr_done : wrote FDone []
| wr_write c p l : wrote p l -> wrote (FWrite c p (FFail None)) (c :: l).
Lemma wrote_says p l : wrote p l -> forall x, says p x <-> x = concat l.
Proof.
  induction 1 as [|c p l H IH]; intros x; cbn [concat].
  - split; [intros K; inversion K; reflexivity|intros ->; constructor].
  - split; [intros K; inversion K as [|? ? ? t K']; subst; f_equal; now apply IH|intros ->; constructor; now apply IH].
Qed.
Lemma wrote_may p l : wrote p l -> forall x, may_write p x -> In x l.
Proof.
  induction 1 as [|c p l H IH]; intros x K; inversion K as [|? ? ? ? K'|? ? ? ? K']; subst; [now left|right; now apply IH|inversion K'].
Qed.
Lemma wrote_stops p l : wrote p l -> stops_on_error p.
Proof. induction 1; cbn; eauto. Qed.
(** [chunks l y]: each chunk is an entity or plain; together they are [y] escaped. *)
Definition chunk (c : str) : Prop := plain c \/ exists b, entity b c.
Lemma escape_loop_wrote : forall rest a m, plain m -> valid_utf8 (m ++ rest) ->
  exists p l, escape_loop (a ++ m ++ rest) rest (length (a ++ m)) (length a) = Ok p /\ wrote p l /\ concat l = html (m ++ rest) /\ Forall chunk l.
Proof.
  induction rest as [|b rest IH]; intros a m Hm V; cbn [escape_loop].
  - rewrite !app_nil_r in *. destruct (Nat.ltb_spec (length a) (length (a ++ m))) as [L|L]; rewrite app_length in L.
    + unfold slice_from. rewrite (boundary_app a m V), app_length. destruct (Nat.leb_spec (length a) (length a + length m)); [|lia]. cbn [andb bind].
      rewrite skipn_app, skipn_all, Nat.sub_diag. cbn [app skipn]. eexists _, [m]. split; [reflexivity|]. split; [repeat constructor|]. split; [|constructor; [now left|constructor]].
      cbn. rewrite app_nil_r. now rewrite html_plain.
    + destruct m; [|cbn in L; lia]. exists FDone, []. repeat split; constructor.
  - destruct (escape_byte b) as [e|] eqn:E.
    + pose proof (escape_ascii _ _ E) as [Hc Hb].
      assert (V2 : valid_utf8 (b :: rest)).
      { pose proof (proj2 (boundary_split _ _ V (boundary_mid m b rest Hc))) as K. now rewrite skipn_app, skipn_all, Nat.sub_diag in K. }
      pose proof (valid_tail _ _ Hb V2) as V3.
      assert (S : @slice error (a ++ m ++ b :: rest) (length a) (length (a ++ m)) = Ok m).
      { unfold slice. rewrite (boundary_app a (m ++ b :: rest) V). rewrite (app_assoc a m (b :: rest)), (boundary_mid (a ++ m) b rest Hc), !app_length. cbn [length].
        destruct (Nat.leb_spec (length a) (length a + length m)); [|lia]. destruct (Nat.leb_spec (length a + length m) (length a + length m + S (length rest))); [|lia]. cbn [andb].
        unfold sub. replace (length a + length m - length a) with (length m) by lia. rewrite <- app_assoc, skipn_app, skipn_all, Nat.sub_diag. cbn [app skipn]. now rewrite firstn_app, firstn_all, Nat.sub_diag, firstn_O, app_nil_r. }
      rewrite S. cbn [bind].
      destruct (IH (a ++ m ++ [b]) [] ltac:(intros ? ? []) V3) as (p & l & Ep & W & C & F).
      replace (a ++ m ++ b :: rest) with ((a ++ m ++ [b]) ++ [] ++ rest) by (cbn; now rewrite <- !app_assoc).
      replace (length (a ++ m) + 1) with (length (a ++ m ++ [b])) by (rewrite !app_length; cbn; lia). rewrite app_nil_r in Ep. rewrite Ep. cbn [bind].
      eexists _, (m :: e :: l). split; [reflexivity|]. split; [repeat constructor; exact W|]. split.
      * assert (Hb1 : html (b :: rest) = e ++ html rest) by (unfold html; cbn [flat_map]; unfold html1 at 1; now rewrite E).
        cbn [concat app] in *. now rewrite C, (html_app m (b :: rest)), (html_plain m Hm), Hb1.
      * constructor; [now left|]. constructor; [|exact F]. right. exists b. now apply escape_entity.
    + destruct (IH a (m ++ [b])) as (p & l & Ep & W & C & F).
      * intros c e K. apply in_app_iff in K as [K|[<-|[]]]; [now apply Hm|]. now apply escape_none.
      * now rewrite <- app_assoc.
      * exists p, l. rewrite <- !app_assoc in *. cbn [app] in *. split; [|auto].
        replace (length (a ++ m) + 1) with (length (a ++ m ++ [b])) by (rewrite !app_length; cbn; lia). exact Ep.
Qed.
(** Whatever the bytes are, it writes nothing else. *)
Lemma escape_loop_sound : forall rest a m p, plain m -> escape_loop (a ++ m ++ rest) rest (length (a ++ m)) (length a) = Ok p ->
  exists l, wrote p l /\ concat l = html (m ++ rest) /\ Forall chunk l.
Proof.
  induction rest as [|b rest IH]; intros a m p Hm; cbn [escape_loop].
  - rewrite !app_nil_r in *. destruct (Nat.ltb_spec (length a) (length (a ++ m))) as [L|L]; rewrite app_length in L.
    + unfold slice_from. destruct (_ && _); [|discriminate]. cbn [bind]. intros E. injection E as <-. rewrite skipn_app, skipn_all, Nat.sub_diag. cbn [app skipn].
      exists [m]. split; [repeat constructor|]. split; [|constructor; [now left|constructor]]. cbn. rewrite app_nil_r. now rewrite html_plain.
    + destruct m; [|cbn in L; lia]. intros E. injection E as <-. exists []. repeat split; constructor.
  - destruct (escape_byte b) as [e|] eqn:E.
    + unfold slice. destruct (_ && _); [|discriminate]. cbn [bind].
      assert (S : sub (a ++ m ++ b :: rest) (length a) (length (a ++ m)) = m).
      { unfold sub. rewrite app_length. replace (length a + length m - length a) with (length m) by lia. rewrite skipn_app, skipn_all, Nat.sub_diag. cbn [app skipn]. now rewrite firstn_app, firstn_all, Nat.sub_diag, firstn_O, app_nil_r. }
      rewrite S. specialize (IH (a ++ m ++ [b]) []). rewrite app_nil_r in IH. rewrite <- !app_assoc in IH. cbn [app] in IH.
      replace (length (a ++ m ++ [b])) with (length (a ++ m) + 1) in IH by (rewrite !app_length; cbn; lia).
      destruct (escape_loop _ rest _ _) as [q| | |]; try discriminate. intros K. injection K as <-. destruct (IH q ltac:(intros ? ? []) eq_refl) as (l & W & C & F).
      exists (m :: e :: l). split; [repeat constructor; exact W|]. split.
      * assert (Hb1 : html (b :: rest) = e ++ html rest) by (unfold html; cbn [flat_map]; unfold html1 at 1; now rewrite E).
        cbn [concat app] in *. now rewrite C, (html_app m (b :: rest)), (html_plain m Hm), Hb1.
      * constructor; [now left|]. constructor; [|exact F]. right. exists b. now apply escape_entity.
    + intros K. destruct (IH a (m ++ [b]) p) as (l & W & C & F).
      * intros c e J. apply in_app_iff in J as [J|[<-|[]]]; [now apply Hm|]. now apply escape_none.
      * rewrite <- !app_assoc. cbn [app]. replace (length (a ++ m ++ [b])) with (length (a ++ m) + 1) by (rewrite !app_length; cbn; lia). exact K.
      * exists l. rewrite <- app_assoc in C. auto.
Qed.
Lemma escape_sound v : plain_floats -> (exists l s, wrote (escape_html v) l /\ concat l = html s /\ Forall chunk l /\ ((forall t, v <> VStr t) -> plain (concat l))) \/ escape_html v = FFail None \/ exists m, escape_html v = FFail m.
Proof.
  intros Hp. assert (D : forall l, wrote (write_chunks l) l) by (induction l; cbn; constructor; auto).
  assert (P : forall l, plain (concat l) -> exists l' s, wrote (write_chunks l) l' /\ concat l' = html s /\ Forall chunk l' /\ ((forall t, v <> VStr t) -> plain (concat l'))).
  { intros l H. exists l, (concat l). split; [apply D|]. split; [symmetry; now apply html_plain|]. split; [|intros _; exact H]. apply Forall_forall. intros c K. left. intros b e J. apply (H b e). apply in_concat. eauto. }
  destruct v as [|b|z|f|s|l|m]; cbn [escape_html fmt_default]; eauto.
  - left. exists [], []. split; [constructor|]. split; [reflexivity|]. split; [constructor|]. intros _ ? ? [].
  - left. apply P. intros c e K J. apply escape_entity in J. destruct b; cbn in K; repeat (destruct K as [<-|K]; [discriminate J|]); destruct K.
  - left. apply P. assert (Dg : forall n, plain (show_N n)).
    { intros n b e K J. destruct (show_natural n) as (_ & Hd & _). rewrite Forall_forall in Hd. apply Hd, digit_cases in K. apply escape_entity in J.
      cbn [In] in K. repeat (destruct K as [<-|K]; [discriminate J|]). destruct K. }
    intros c e K J. destruct z as [|p|p]; cbn [display_chunks concat show_Z] in K; rewrite app_nil_r in K; [exact (Dg _ c e K J)|exact (Dg _ c e K J)|].
    apply in_app_iff in K as [[<-|[]]|K]; [|exact (Dg _ c e K J)]. apply escape_entity in J. discriminate J.
  - left. apply P. intros c e K. apply in_concat in K as (x & K1 & K2). exact (Hp f x c e K1 K2).
  - destruct (escape_loop s s 0 0) as [p| | |] eqn:E; auto. left. destruct (escape_loop_sound s [] [] p ltac:(intros ? ? []) E) as (l & W & C & F). exists l, s. split; [exact W|]. split; [exact C|]. split; [exact F|]. intros K. now destruct (K s).
Qed.
Lemma escape_never_panics s : valid_utf8 s -> exists p l, escape_loop s s 0 0 = Ok p /\ wrote p l /\ concat l = html s /\ Forall chunk l.
Proof. intros V. exact (escape_loop_wrote s [] [] ltac:(intros ? ? []) V). Qed.
Lemma wrote_chunks l : wrote (write_chunks l) l.
Proof. induction l; cbn; constructor; auto. Qed.
End Escape.
