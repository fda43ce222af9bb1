(** Tilings cover the source and trim exactly. *)
From Verif Require Import Base Utf8 Ext Errors Syntax AhoCorasick SearchSpec SyntaxSpec Value Ast Lexer LexSpec Wp TrimProof
  AcProof LexProof GrammarSpec Parser TokStream TileSpec.

Section TileProof.
Context `{X : Ext}.
Variable sx : syntax.
Hypothesis Hsx : user_syntax sx.
Variable source : str.
Hypothesis Hsrc : valid_utf8 source.

Lemma tag_not_raw k : tag_token k <> TRaw.
Proof. destruct k; discriminate. Qed.
Lemma hyphen_not_raw b sp : ~ hyphen_tag sx source b (TRaw, sp).
Proof. intros (k & _ & E & _). symmetry in E. now apply tag_not_raw in E. Qed.
Lemma before_trims ts : next_trims sx source ts <-> before_hyphen sx source ts.
Proof.
  unfold next_trims, before_hyphen, hyphen_tag. split.
  - destruct ts as [|[t sp] ts]; [contradiction|]. intros (k & H1 & H2 & H3 & H4). exists (t, sp), ts. split; auto. exists k. auto.
  - intros ([t sp] & ts' & -> & k & H1 & H2 & H3 & H4). exists k. auto.
Qed.

Lemma TAGU k k' m n n' : tag_at sx source k m n -> tag_at sx source k' m n' -> k = k' /\ n = n'.
Proof.
  destruct (@find_at_spec error error sx) as (sr & H1 & H2).
  { intros k0 p Hin. exact (proj1 (user_syntax_pat sx Hsx k0 p Hin)). }
  eapply tag_unique; eauto.
Qed.

Definition linked (prev : option (token * span)) (lo at_ : nat) (md : mode) (ts : list (token * span)) : Prop :=
  (md = MText true <-> after_hyphen sx source prev) /\
  (lo = at_ \/ lo < at_ /\ white (sub source lo at_) /\ before_hyphen sx source ts).

Lemma tag_closing_hyphen k m n : tag_at sx source k m n ->
  (after_hyphen sx source (Some (tag_token k, mkspan m n)) <-> opening k = false /\ hyphenated k = true).
Proof.
  intros Ht. split.
  - intros ([t sp] & E & k' & H1 & H2 & H3 & H4). injection E as <- <-. cbn [snd sp_m sp_n] in H1.
    destruct (TAGU _ _ _ _ _ Ht H1) as [-> _]. auto.
  - intros [H1 H2]. exists (tag_token k, mkspan m n). split; auto. exists k. auto.
Qed.
Lemma tag_opening_hyphen k m n ts : tag_at sx source k m n ->
  (before_hyphen sx source ((tag_token k, mkspan m n) :: ts) -> opening k = true).
Proof.
  intros Ht ([t sp] & ts' & E & k' & H1 & H2 & H3 & H4). injection E as <- <- <-. cbn [snd sp_m sp_n] in H1.
  destruct (TAGU _ _ _ _ _ Ht H1) as [-> _]. auto.
Qed.
Lemma no_tag t m n : (forall k p, In (k, p) sx -> ~ occurs_at p source m) -> forall b, ~ hyphen_tag sx source b (t, mkspan m n).
Proof.
  intros Hno b (k & H1 & _). destruct H1 as (_ & _ & _ & _ & _ & (bf & p & af & E & O & _)). cbn [snd sp_m] in O.
  apply (Hno k p); auto. rewrite E. apply in_or_app. simpl. auto.
Qed.

Lemma tiling_covers full at_ md ts : tiling sx source full at_ md ts -> full = true ->
  forall prev lo, linked prev lo at_ md ts ->
  tokens_cover sx source lo prev ts /\ raw_trimmed sx source lo prev ts.
Proof.
  induction 1 as [at_ md He|at_ md m n at' ts R1 R2 R3 R4 R5 R6 R7 R8 R9 R10 R11 R12 Ht IH
                 |m n k b ts Hk Htag Ht IH|m n k md ts Hk Htag Hmd Ht IH
                 |m n t e path ts K1 K2 K3 K4 K5 K6 K7 Ht IH]; intros Hfull prev lo (L1 & L2).
  - cbn [tokens_cover raw_trimmed]. destruct L2 as [->|(_ & _ & (t & ts & E & _))]; [auto|discriminate].
  - assert (Elo : lo = at_).
    { destruct L2 as [->|(_ & _ & (t & ts' & E & Hh))]; auto. injection E as <- _. now apply hyphen_not_raw in Hh. }
    subst lo. destruct (IH Hfull (Some (TRaw, mkspan m n)) n) as [I1 I2].
    { split.
      - split; [destruct md as [[|]| |]; discriminate|]. intros (t & E & Hh). injection E as <-. now apply hyphen_not_raw in Hh.
      - rewrite before_trims in R11. destruct R11 as [(Hn & Hw & _)|(_ & ->)]; auto.
        destruct (Nat.eq_dec n at'); [auto|]. right. split; [lia|]. auto. }
    assert (Hstart : next_start source ts = at').
    { inversion Ht as [? ? He|? ? ? ? ? ? Q1 Q2 Q3 Q4 Q5 Q6 Q7 Q8 Q9|? ? k' b' ? O1 O2 O3|? ? k' ? ? O1 O2 O3 O4|? ? ? ? ? ? K1 K2 K3 K4 K5]; subst; cbn; auto.
      - now rewrite He.
      - exfalso. destruct R10 as [->|(k & p & Hin & Ho)]; [lia|]. apply (Q9 k p at'); auto. }
    cbn [tokens_cover raw_trimmed sp_m sp_n]. split; [split; [|split; [|split]]|split]; auto.
    + destruct md as [[|]|e0 b0|]; auto. destruct R12 as [Hw _]. destruct (Nat.eq_dec m at_); [auto|right].
      split; [lia|]. split; auto. left. now apply L1.
    + repeat split; auto.
    + lia.
    + intros _. cbv zeta. rewrite Hstart. split; [|split; [|split]].
      * intros Ha. apply L1 in Ha. subst md. exact R12.
      * intros Ha. destruct md as [[|]|e0 b0|]; auto. exfalso. now apply Ha, L1.
      * rewrite <- before_trims. intros Hb. destruct R11 as [(_ & H1 & H2)|(Hn & _)]; [auto|contradiction].
      * rewrite <- before_trims. intros Hb. destruct R11 as [(Hn & _)|(_ & E)]; [contradiction|auto].
  - pose proof (tag_facts0 sx Hsx source Hsrc _ _ _ Htag) as Hf.
    destruct (IH Hfull (Some (tag_token k, mkspan m n)) n) as [I1 I2].
    { split; [|auto]. rewrite (tag_closing_hyphen _ _ _ Htag). split; [destruct k; discriminate|]. intros [? _]. congruence. }
    cbn [tokens_cover raw_trimmed sp_m sp_n]. split; [split; [|split; [|split]]|split]; auto.
    + destruct L2 as [->|(H1 & H2 & H3)]; auto.
    + repeat split; cbn; try tauto. lia.
    + tauto.
    + intros E. now apply tag_not_raw in E.
  - pose proof (tag_facts0 sx Hsx source Hsrc _ _ _ Htag) as Hf.
    destruct (IH Hfull (Some (tag_token k, mkspan m n)) n) as [I1 I2].
    { split; [|auto]. rewrite (tag_closing_hyphen _ _ _ Htag). split; [intros E; injection E as E; auto|]. intros [_ ->]. auto. }
    cbn [tokens_cover raw_trimmed sp_m sp_n]. split; [split; [|split; [|split]]|split]; auto.
    + destruct L2 as [->|(H1 & H2 & H3)]; auto.
    + repeat split; cbn; try tauto. lia.
    + tauto.
    + intros E. now apply tag_not_raw in E.
  - destruct (IH Hfull (Some (t, mkspan m n)) n) as [I1 I2].
    { split; [|auto]. split; [discriminate|]. intros (t0 & E & Hh). injection E as <-. now apply no_tag in Hh. }
    cbn [tokens_cover raw_trimmed sp_m sp_n]. split; [split; [|split; [|split]]|split]; auto.
    + destruct L2 as [->|(H1 & H2 & H3)]; auto.
    + repeat split; cbn; auto. lia.
    + intros ->. destruct K6.
Qed.

Lemma tiling_start ts : tiling sx source true 0 (MText false) ts ->
  tokens_cover sx source 0 None ts /\ raw_trimmed sx source 0 None ts.
Proof.
  intros H. eapply tiling_covers; eauto. split; [|auto]. split; [discriminate|]. intros (t & E & _). discriminate.
Qed.
End TileProof.

(** ** The public token stream *)
Section LexAll.
Context `{X : Ext}.
Variable sx : syntax.
Hypothesis Hsx : user_syntax sx.
Variable sr : searcher.
Variable source : str.
Hypothesis Hsrc : valid_utf8 source.

Lemma lex_all_loop_spec ts : forall fuel lx fin, stream sx sr source lx ts fin -> length ts < fuel ->
  lex_all_loop sr source fuel lx = match fin with None => Ok ts | Some e => Err e end.
Proof.
  induction ts as [|t ts IH]; intros fuel lx fin H Hf; (destruct fuel as [|fuel]; [lia|]); cbn [lex_all_loop].
  - destruct fin as [e|].
    + now rewrite (next_err sx Hsx sr source Hsrc _ _ H).
    + destruct (next_nil sx Hsx sr source Hsrc _ H) as (lx' & -> & _). reflexivity.
  - destruct (next_cons sx Hsx sr source Hsrc _ _ _ _ H) as (lx' & -> & H'). cbn [bind].
    rewrite (IH fuel lx' fin H') by (simpl in Hf; lia). destruct fin; reflexivity.
Qed.
End LexAll.
