From Coq Require Import Decimal DecimalFacts DecimalN DecimalPos.
From Verif Require Import Base DecimalSpec.

(** Digits as [Decimal.uint]. *)
Definition cons_digit (b : byte) (d : uint) : uint :=
  match b with
  | x30 => D0 d | x31 => D1 d | x32 => D2 d | x33 => D3 d | x34 => D4 d
  | x35 => D5 d | x36 => D6 d | x37 => D7 d | x38 => D8 d | _ => D9 d
  end.
Fixpoint to_u (s : str) : uint := match s with [] => Nil | b :: s' => cons_digit b (to_u s') end.

Lemma digit_cases b : decimal_digit b -> In b [x30; x31; x32; x33; x34; x35; x36; x37; x38; x39].
Proof.
  unfold decimal_digit. intros H. destruct b; vm_compute in H; destruct H as [H1 H2]; try (exfalso; apply H1; reflexivity); try (exfalso; apply H2; reflexivity);
  cbn [In]; tauto.
Qed.
Lemma uint_to_u s : Forall decimal_digit s -> uint_bytes (to_u s) = s.
Proof.
  induction 1 as [|b s Hb Hs IH]; [reflexivity|]. cbn [to_u]. apply digit_cases in Hb.
  repeat destruct Hb as [<-|Hb]; try destruct Hb; cbn [cons_digit uint_bytes]; now rewrite IH.
Qed.
Lemma to_u_uint d : to_u (uint_bytes d) = d.
Proof. induction d; cbn [uint_bytes to_u cons_digit]; now rewrite ?IHd. Qed.
Lemma uint_digits d : Forall decimal_digit (uint_bytes d).
Proof. induction d; cbn [uint_bytes]; constructor; auto; unfold decimal_digit; vm_compute; split; discriminate. Qed.

(** Values: Horner's rule, both ways. *)
Definition horner (a : N) (s : str) : N := fold_left (fun a b => 10 * a + (byte_N b - 48))%N s a.
Lemma of_uint_acc_horner d : forall p, Npos (Pos.of_uint_acc d p) = horner (Npos p) (uint_bytes d).
Proof.
  induction d; intros p; cbn [Pos.of_uint_acc uint_bytes horner fold_left]; [reflexivity|..];
  rewrite IHd; unfold horner; f_equal; cbn [byte_N]; vm_compute (byte_N _); lia.
Qed.
Lemma of_uint_horner d : N.of_uint d = horner 0 (uint_bytes d).
Proof.
  unfold N.of_uint. induction d; cbn [Pos.of_uint uint_bytes horner fold_left]; [reflexivity|exact IHd|..];
  rewrite of_uint_acc_horner; unfold horner; f_equal.
Qed.
Lemma unorm_canonical s : Forall decimal_digit s -> s <> [] -> s = [x30] \/ hd_error s <> Some x30 -> unorm (to_u s) = to_u s.
Proof.
  intros Hs Hn Hc. destruct Hs as [|b s Hb Hs]; [now destruct Hn|]. destruct Hc as [E|Hc]; [injection E as -> ->; reflexivity|].
  cbn [hd_error] in Hc. cbn [to_u]. apply digit_cases in Hb. destruct Hb as [<-|Hb]; [now destruct Hc|].
  repeat destruct Hb as [<-|Hb]; try destruct Hb; reflexivity.
Qed.
Lemma natural_show n s : natural n s -> s = show_N n.
Proof.
  intros (Hn & Hs & Hc & <-). unfold show_N. change (digits_value s) with (horner 0 s). rewrite <- (uint_to_u s Hs) at 2. rewrite <- of_uint_horner.
  rewrite DecimalN.Unsigned.to_of, (unorm_canonical s Hs Hn Hc). symmetry. now apply uint_to_u.
Qed.
Lemma uint_bytes_nil d : uint_bytes d = [] -> d = Nil.
Proof. destruct d; [reflexivity|discriminate..]. Qed.
Lemma unorm_head d : (unorm d = D0 Nil \/ hd_error (uint_bytes (unorm d)) <> Some x30) /\ unorm d <> Nil.
Proof.
  induction d; cbn [unorm]; try (split; [right; cbn; discriminate|discriminate]).
  - split; [now left|discriminate].
  - exact IHd.
Qed.
Lemma show_natural n : natural n (show_N n).
Proof.
  unfold show_N. assert (E : unorm (N.to_uint n) = N.to_uint n).
  { rewrite <- (DecimalN.Unsigned.of_to n) at 2. now rewrite DecimalN.Unsigned.to_of. }
  destruct (unorm_head (N.to_uint n)) as (H & N1). rewrite E in H, N1. split; [intros K; now apply uint_bytes_nil in K|].
  split; [apply uint_digits|]. split.
  - destruct H as [-> |H]; [now left|now right].
  - change (digits_value (uint_bytes (N.to_uint n))) with (horner 0 (uint_bytes (N.to_uint n))). rewrite <- of_uint_horner. apply DecimalN.Unsigned.of_to.
Qed.
Theorem decimal_show z s : decimal z s <-> s = show_Z z.
Proof.
  unfold decimal, show_Z. destruct z as [|p|p]; cbn [Z.leb Z.compare Z.opp Z.to_N].
  - split; [apply natural_show|intros ->; apply show_natural].
  - split; [apply natural_show|intros ->; apply show_natural].
  - split; [intros (t & -> & H); f_equal; now apply natural_show|intros ->; eexists; split; [reflexivity|apply show_natural]].
Qed.
(** A numeral denotes one number. *)
Lemma decimal_inj z z' s : decimal z s -> decimal z' s -> z = z'.
Proof.
  unfold decimal. assert (M : forall n t, natural n (x2d :: t) -> False).
  { intros n t (_ & H & _). inversion H as [|? ? Hd _]. destruct Hd as [Hd _]. apply Hd. reflexivity. }
  destruct (Z.leb_spec 0 z), (Z.leb_spec 0 z'); intros H1 H2.
  - destruct H1 as (_ & _ & _ & H1), H2 as (_ & _ & _ & H2). lia.
  - destruct H2 as (t & -> & _). now destruct (M _ _ H1).
  - destruct H1 as (t & -> & _). now destruct (M _ _ H2).
  - destruct H1 as (t & -> & (_ & _ & _ & H1)), H2 as (t' & E & (_ & _ & _ & H2)). injection E as <-. lia.
Qed.
