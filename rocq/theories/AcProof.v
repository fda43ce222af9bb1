(** Proof that the automaton of AhoCorasick.v finds leftmost-longest matches. *)
From Verif Require Import Base Syntax AhoCorasick SearchSpec.

(** ** Abstract theory of words *)

Lemma skipn_snoc (w : str) (b : byte) i : i <= length w -> skipn i (w ++ [b]) = skipn i w ++ [b].
Proof. intros H. rewrite skipn_app. replace (i - length w) with 0 by lia. reflexivity. Qed.

Section Words.
Variable P : list (nat * str).
Hypothesis P_nonempty : forall k p, In (k, p) P -> p <> [].

Definition is_pat (w : str) : Prop := exists k, In (k, w) P.
Definition prefix (u p : str) : Prop := exists t, p = u ++ t.
Definition Node (w : str) : Prop := w = [] \/ exists p, is_pat p /\ prefix w p.
Definition occ (w : str) (i : nat) : Prop := exists p, is_pat p /\ prefix p (skipn i w).
Definition good (w : str) (k : nat) : Prop :=
  k <= length w /\ Node (skipn k w) /\ forall i, i < k -> ~ occ w i.

Lemma prefix_refl u : prefix u u.
Proof. exists []. now rewrite app_nil_r. Qed.

Lemma prefix_app u v : prefix u (u ++ v).
Proof. now exists v. Qed.

Lemma prefix_trans u v w : prefix u v -> prefix v w -> prefix u w.
Proof. intros [a ->] [b ->]. exists (a ++ b). now rewrite app_assoc. Qed.

Lemma Node_prefix u v : prefix u v -> Node v -> Node u.
Proof.
  intros H [->|(p & Hp & Hpre)].
  - left. destruct H as [t H]. symmetry in H. now apply app_eq_nil in H as [-> _].
  - right. exists p. split; auto. eapply prefix_trans; eauto.
Qed.

Lemma Node_pat p : is_pat p -> Node p.
Proof. intros H. right. exists p. split; auto using prefix_refl. Qed.

Lemma pat_nonempty p : is_pat p -> p <> [].
Proof. intros [k Hk]. eauto. Qed.

Lemma occ_app w v i : i <= length w -> occ w i -> occ (w ++ v) i.
Proof.
  intros Hi (p & Hp & t & Ht). exists p. split; auto. exists (t ++ v).
  rewrite skipn_app. replace (i - length w) with 0 by lia. simpl. rewrite Ht, app_assoc. reflexivity.
Qed.

Lemma occ_le w i : occ w i -> i < length w.
Proof.
  intros (p & Hp & t & Ht). destruct (Nat.lt_ge_cases i (length w)); auto.
  rewrite skipn_all2 in Ht by lia. symmetry in Ht. apply app_eq_nil in Ht as [-> _].
  now apply pat_nonempty in Hp.
Qed.

Lemma occ_skip w k i : occ w (k + i) <-> occ (skipn k w) i.
Proof. unfold occ. now rewrite skipn_skipn, Nat.add_comm. Qed.

(** An occurrence in [w ++ [b]] is an occurrence in [w] or ends at the end. *)
Lemma occ_snoc w b i : occ (w ++ [b]) i ->
  occ w i \/ (i <= length w /\ is_pat (skipn i (w ++ [b]))).
Proof.
  intros H. pose proof (occ_le _ _ H) as Hi. rewrite app_length in Hi. simpl in Hi.
  destruct H as (p & Hp & t & Ht).
  destruct (rev t) as [|c rt] eqn:Er.
  - right. split; [lia|]. assert (t = []) by (rewrite <- (rev_involutive t), Er; reflexivity).
    subst t. rewrite Ht, app_nil_r. exact Hp.
  - left. assert (t = rev rt ++ [c]) as ->.
    { rewrite <- (rev_involutive t), Er. reflexivity. }
    exists p. split; auto. exists (rev rt).
    rewrite skipn_app in Ht. replace (i - length w) with 0 in Ht by lia. simpl in Ht.
    rewrite app_assoc in Ht. apply app_inj_tail in Ht. tauto.
Qed.

Lemma good_snoc w b k : k <= length w -> good (w ++ [b]) k -> good w k.
Proof.
  intros Hk (_ & Hn & Ho). split; [lia|]. split.
  - rewrite skipn_snoc in Hn by lia. eapply Node_prefix; eauto using prefix_app.
  - intros i Hi H. apply (Ho i Hi). apply occ_app; auto; lia.
Qed.

Lemma good_0 w : Node w -> good w 0.
Proof. intros H. repeat split; [lia|exact H|lia]. Qed.

Lemma good_end w : (forall i, ~ occ w i) -> good w (length w).
Proof.
  intros H. repeat split; auto. rewrite skipn_all. now left.
Qed.

Lemma good_skip w k d : good w k -> (good w (k + d) <-> good (skipn k w) d).
Proof.
  intros (Hk & Hn & Ho). unfold good. rewrite skipn_skipn, skipn_length.
  replace (d + k) with (k + d) by lia. split; intros (H1 & H2 & H3); repeat split; auto; try lia.
  - intros i Hi Hocc. apply (H3 (k + i)); [lia|]. now apply occ_skip.
  - intros i Hi Hocc. destruct (Nat.lt_ge_cases i k) as [|Hge]; [now apply (Ho i)|].
    apply (H3 (i - k)); [lia|]. apply occ_skip. now replace (k + (i - k)) with i by lia.
Qed.

(** The least good offset at or after [lo]. *)
Definition least (w : str) (lo k : nat) : Prop :=
  lo <= k /\ good w k /\ forall k', lo <= k' -> k' < k -> ~ good w k'.

Definition none_good (w : str) (lo : nat) : Prop := forall k, lo <= k -> ~ good w k.

(** If [k] is the least good offset (from [lo]) of [w] and no pattern occurrence in
    [w b] that starts before [lo] exists, the good offsets of [w b] from [lo]
    are those of [(skipn k w) b] shifted. *)
Lemma good_shift w b lo k : least w lo k ->
  (forall i, i < lo -> ~ is_pat (skipn i (w ++ [b]))) ->
  (forall d, good (w ++ [b]) (k + d) <-> good (skipn k w ++ [b]) d) /\
  (forall k', lo <= k' -> good (w ++ [b]) k' -> k <= k').
Proof.
  intros (Hlo & Hg & Hmin) Hpat.
  assert (Hk : k <= length w) by apply Hg.
  assert (Hno : forall i, i < k -> ~ occ (w ++ [b]) i).
  { intros i Hi Hocc. apply occ_snoc in Hocc as [Hocc|[Hi2 Hp]].
    - destruct Hg as (_ & _ & Ho). now apply (Ho i).
    - destruct (Nat.lt_ge_cases i lo) as [Hl|Hl]; [now apply (Hpat i)|].
      apply (Hmin i); auto. split; [lia|]. split.
      + rewrite skipn_snoc in Hp by lia. eapply Node_prefix; [apply prefix_app|].
        apply Node_pat. exact Hp.
      + intros i' Hi' Hocc. destruct Hg as (_ & _ & Ho). apply (Ho i'); [lia|exact Hocc]. }
  assert (Hskip : skipn k (w ++ [b]) = skipn k w ++ [b]) by (apply skipn_snoc; lia).
  split.
  - intros d. rewrite <- Hskip. unfold good. rewrite !skipn_skipn, skipn_length.
    replace (d + k) with (k + d) by lia.
    rewrite !app_length; simpl.
    split; intros (H1 & H2 & H3); (split; [lia|split; [exact H2|]]).
    + intros i Hi Ho. apply (H3 (k + i)); [lia|]. now apply occ_skip.
    + intros i Hi Ho. destruct (Nat.lt_ge_cases i k) as [|Hge]; [now apply (Hno i)|].
      apply (H3 (i - k)); [lia|]. apply occ_skip. now replace (k + (i - k)) with i by lia.
  - intros k' Hlo' Hg'. destruct (Nat.lt_ge_cases k' k) as [Hlt|]; auto.
    exfalso. apply (Hmin k'); auto. apply good_snoc with b; [lia|auto].
Qed.

Lemma none_good_snoc w b lo : lo <= length w -> none_good w lo -> none_good (w ++ [b]) lo.
Proof.
  intros Hlo H k Hk Hg. destruct (Nat.le_gt_cases k (length w)) as [Hle|Hgt].
  - apply (H k Hk). now apply good_snoc with b.
  - apply (H (length w) Hlo). apply good_end. intros i Hocc.
    pose proof (occ_le _ _ Hocc). destruct Hg as (Hkl & _ & Ho).
    apply (Ho i); [lia|]. apply occ_app; [lia|auto].
Qed.

(** Result of a search for the state of [w] from offset [lo]. *)
Inductive target (w : str) (lo : nat) : option str -> Prop :=
| TgNode k : least w lo k -> target w lo (Some (skipn k w))
| TgDead : none_good w lo -> target w lo None.

Lemma least_fun w lo k k' : least w lo k -> least w lo k' -> k = k'.
Proof.
  intros (H1 & H2 & H3) (H1' & H2' & H3').
  destruct (Nat.lt_trichotomy k k') as [H|[H|H]]; auto.
  - exfalso. now apply (H3' k).
  - exfalso. now apply (H3 k').
Qed.

Lemma target_fun w lo a b : target w lo a -> target w lo b -> a = b.
Proof.
  intros [k Hk|H1] [k' Hk'|H2]; auto.
  - now rewrite (least_fun _ _ _ _ Hk Hk').
  - destruct Hk as (Hl & Hg & _). now elim (H2 k).
  - destruct Hk' as (Hl & Hg & _). now elim (H1 k').
Qed.

(** The state after one more byte, given that the state before is the node [u]
    reached at offset [k]. *)
Lemma target_snoc w b lo u : lo <= length w -> target w lo (Some u) ->
  (forall i, i < lo -> ~ is_pat (skipn i (w ++ [b]))) ->
  forall r, target (u ++ [b]) 0 r -> target (w ++ [b]) lo r.
Proof.
  intros Hlo Ht Hpat r Hr. inversion Ht as [k Hk Eu|]; subst.
  destruct (good_shift w b lo k Hk Hpat) as [Hs Hge].
  assert (Hkl : k <= length w) by apply Hk. assert (Hlk : lo <= k) by apply Hk.
  assert (Hskip : skipn k (w ++ [b]) = skipn k w ++ [b]) by (apply skipn_snoc; lia).
  inversion Hr as [d (H0 & Hd & Hm) Er|Hn]; subst.
  - rewrite <- Hskip, skipn_skipn. replace (d + k) with (k + d) by lia. apply TgNode.
    split; [lia|]. split; [now apply Hs|]. intros k' Hk' Hlt Hg.
    pose proof (Hge k' Hk' Hg). apply (Hm (k' - k)); [lia|lia|].
    apply Hs. now replace (k + (k' - k)) with k' by lia.
  - apply TgDead. intros k' Hk' Hg. pose proof (Hge k' Hk' Hg).
    apply (Hn (k' - k)); [lia|]. apply Hs. now replace (k + (k' - k)) with k' by lia.
Qed.

Lemma target_snoc_dead w b lo : lo <= length w -> target w lo None -> target (w ++ [b]) lo None.
Proof.
  intros Hlo Ht. inversion Ht; subst. apply TgDead. now apply none_good_snoc.
Qed.

(** Direct cases. *)
Lemma target_node w : Node w -> target w 0 (Some w).
Proof.
  intros H. change w with (skipn 0 w) at 2. apply TgNode. repeat split; try lia. exact H.
Qed.

Lemma target_byte b : ~ Node [b] -> target [b] 0 (Some []).
Proof.
  intros H. change [] with (skipn 1 [b]). apply TgNode. split; [lia|]. split.
  - change 1 with (length [b]). apply good_end. intros i Hocc. pose proof (occ_le _ _ Hocc) as Hi.
    simpl in Hi. assert (i = 0) by lia. subst. destruct Hocc as (p & Hp & t & Ht). simpl in Ht.
    apply H. eapply Node_prefix; [|apply Node_pat; exact Hp].
    pose proof (pat_nonempty p Hp). destruct p as [|c p]; [contradiction|]. inversion Ht; subst.
    destruct p; [|discriminate]. apply prefix_refl.
  - intros k' _ Hk' Hg. assert (k' = 0) by lia. subst. apply H. apply Hg.
Qed.

(** When [u] itself is not continued by [b], only offsets from 1 matter. *)
Lemma target_from_1 u b r : ~ Node (u ++ [b]) -> target (u ++ [b]) 1 r -> target (u ++ [b]) 0 r.
Proof.
  intros Hn Ht. inversion Ht as [k (H1 & H2 & H3)|H]; subst.
  - apply TgNode. split; [lia|]. split; auto. intros k' _ Hlt Hg.
    destruct k'; [apply Hn; apply Hg|]. apply (H3 (S k')); auto; lia.
  - apply TgDead. intros [|k] _ Hg; [apply Hn; apply Hg|]. apply (H (S k)); auto; lia.
Qed.

(** Which pattern a state reports: the one at a good offset, if any. *)
Definition reports (u : str) (p : str) : Prop := exists d, good u d /\ skipn d u = p /\ is_pat p.

Lemma reports_last w k d : good w k -> occ w d -> k <= d.
Proof.
  intros (_ & _ & H) Ho. destruct (Nat.lt_ge_cases d k) as [Hlt|]; auto. exfalso. now apply (H d).
Qed.

Lemma reports_fun u p p' : reports u p -> reports u p' -> p = p'.
Proof.
  intros (d & Hg & E & Hp) (d' & Hg' & E' & Hp').
  assert (occ u d). { exists p. rewrite E. split; auto using prefix_refl. }
  assert (occ u d'). { exists p'. rewrite E'. split; auto using prefix_refl. }
  pose proof (reports_last _ _ _ Hg H0). pose proof (reports_last _ _ _ Hg' H).
  assert (d = d') by lia. subst. congruence.
Qed.

Lemma reports_shift w lo u : target w lo (Some u) ->
  forall p, reports w p <-> reports u p.
Proof.
  intros Ht p. inversion Ht as [k (H1 & H2 & H3) E|]; subst. split.
  - intros (d & Hg & E & Hp). assert (Hd : occ w d).
    { exists p. rewrite E. split; auto using prefix_refl. }
    assert (k <= d) by (eapply reports_last; eauto). exists (d - k). split.
    + apply (good_skip w k (d - k) H2). now replace (k + (d - k)) with d by lia.
    + rewrite skipn_skipn. replace (d - k + k) with d by lia. auto.
  - intros (d & Hg & E & Hp). exists (k + d). split.
    + now apply good_skip.
    + rewrite skipn_skipn in E. rewrite Nat.add_comm. auto.
Qed.

End Words.

(** ** The trie *)

Definition own (P : list (nat * str)) (u : str) : list pattern :=
  map (fun kp => mkpat (fst kp) (length (snd kp))) (filter (fun kp => str_eqb (snd kp) u) P).

(** [ws] gives the word of each state; [node ws i u]: state [i] is the node of [u]. *)
Definition node (ws : list str) (i : nat) (u : str) : Prop := 2 <= i /\ nth_error ws i = Some u.

Record trie (P : list (nat * str)) (ws : list str) (sts : automaton) : Prop := mktrie {
  tr_len : length ws = length sts;
  tr_root : node ws START [];
  tr_uniq : forall i j u, node ws i u -> node ws j u -> i = j;
  tr_closed : forall i u b, node ws i (u ++ [b]) -> exists j, node ws j u;
  tr_pats : forall k p, In (k, p) P -> exists i, node ws i p;
  tr_dead : exists s, nth_error sts DEAD = Some s /\ (forall b, st_trans s b = FAIL)
                      /\ st_matches s = [] /\ st_depth s = 0;
  tr_st : forall i u, node ws i u -> exists s, nth_error sts i = Some s /\
    st_depth s = length u /\ st_matches s = own P u /\ st_fail s = START /\
    (forall b, (st_trans s b = FAIL /\ forall j, ~ node ws j (u ++ [b])) \/
               node ws (st_trans s b) (u ++ [b]))
}.

Lemma node_lt ws i u : node ws i u -> i < length ws.
Proof. intros [_ H]. apply nth_error_Some. congruence. Qed.

Lemma node_fun ws i u v : node ws i u -> node ws i v -> u = v.
Proof. intros [_ H1] [_ H2]. congruence. Qed.

Lemma node_app ws i u v : node ws i u -> node (ws ++ v) i u.
Proof.
  intros H. pose proof (node_lt _ _ _ H). destruct H as [H1 H2]. split; auto.
  now rewrite nth_error_app1.
Qed.

Lemma node_snoc ws i u v : node (ws ++ [v]) i u -> node ws i u \/ (i = length ws /\ u = v).
Proof.
  intros [H1 H2]. destruct (Nat.lt_trichotomy i (length ws)) as [H|[H|H]].
  - left. rewrite nth_error_app1 in H2 by assumption. now split.
  - right. subst. rewrite nth_error_app2, Nat.sub_diag in H2 by lia. simpl in H2. split; congruence.
  - assert (nth_error (ws ++ [v]) i = None) by (apply nth_error_None; rewrite app_length; simpl; lia).
    congruence.
Qed.

Lemma node_new ws v : 2 <= length ws -> node (ws ++ [v]) (length ws) v.
Proof. intros H. split; auto. rewrite nth_error_app2, Nat.sub_diag by lia. reflexivity. Qed.

Lemma own_nil P u : (forall k, ~ In (k, u) P) -> own P u = [].
Proof.
  intros H. unfold own. induction P as [|[k p] P' IH]; simpl; auto.
  destruct (str_eqb p u) eqn:E.
  - apply str_eqb_eq in E. subst. exfalso. apply (H k). now left.
  - apply IH. intros k' Hk'. apply (H k'). now right.
Qed.

(** One new node below [u]. *)
Lemma trie_push P ws sts id u b s :
  trie P ws sts -> node ws id u -> nth_error sts id = Some s -> st_trans s b = FAIL ->
  trie P (ws ++ [u ++ [b]])
       (upd id (set_transition b (length sts)) (sts ++ [mkst (fun _ => FAIL) START [] (length u + 1)])).
Proof.
  intros T Hid Hs Hb. destruct T as [Tlen Troot Tuniq Tclosed Tpats Tdead Tst].
  assert (Hlen : 2 < length ws) by (apply (node_lt _ _ _ Troot)).
  assert (Hnot : forall j, ~ node ws j (u ++ [b])).
  { destruct (Tst id u Hid) as (s' & Hs' & _ & _ & _ & Htr). rewrite Hs in Hs'. injection Hs' as <-.
    destruct (Htr b) as [[_ H]|H]; [exact H|]. rewrite Hb in H. destruct H as [H _].
    unfold FAIL in H. lia. }
  assert (Hnth : forall i, i <> id -> i < length sts ->
    nth_error (upd id (set_transition b (length sts)) (sts ++ [mkst (fun _ => FAIL) START [] (length u + 1)])) i
    = nth_error sts i).
  { intros i Hne Hlt. rewrite nth_error_upd_other by congruence. now rewrite nth_error_app1. }
  constructor.
  - rewrite upd_length, !app_length. simpl. lia.
  - now apply node_app.
  - intros i j v Hi Hj. apply node_snoc in Hi. apply node_snoc in Hj.
    destruct Hi as [Hi|[-> ->]], Hj as [Hj|[-> E]]; subst; eauto.
    + exfalso. now apply (Hnot i).
    + exfalso. now apply (Hnot j).
  - intros i v c Hi. apply node_snoc in Hi as [Hi|[-> E]].
    + destruct (Tclosed i v c Hi) as [j Hj]. exists j. now apply node_app.
    + apply app_inj_tail in E as [-> _]. exists id. now apply node_app.
  - intros k p Hin. destruct (Tpats k p Hin) as [i Hi]. exists i. now apply node_app.
  - destruct Tdead as (sd & H1 & H2). exists sd. split; auto. rewrite Hnth; auto.
    + destruct Hid. unfold DEAD. lia.
    + unfold DEAD. lia.
  - intros i v Hi. apply node_snoc in Hi as [Hi|[-> ->]].
    + pose proof (node_lt _ _ _ Hi). destruct (Tst i v Hi) as (si & Hsi & Hd & Hm & Hf & Htr).
      destruct (Nat.eq_dec i id) as [->|Hne].
      * assert (v = u) by (eapply node_fun; eauto). subst v. rewrite Hs in Hsi. injection Hsi as <-.
        exists (set_transition b (length sts) s). split.
        { apply nth_error_upd_same. now rewrite nth_error_app1 by lia. }
        simpl. repeat split; auto. intros c. destruct (Byte.eqb c b) eqn:E.
        -- apply byte_eqb_eq in E. subst c. right. rewrite <- Tlen. apply node_new. lia.
        -- apply byte_eqb_neq in E. destruct (Htr c) as [[H1 H2]|H1].
           ++ left. split; auto. intros j Hj. apply node_snoc in Hj as [Hj|[_ Hj]].
              ** now apply (H2 j).
              ** apply app_inj_tail in Hj as [_ Hj]. contradiction.
           ++ right. now apply node_app.
      * exists si. rewrite Hnth by (auto; lia). repeat split; auto. intros c.
        destruct (Htr c) as [[H1 H2]|H1].
        -- left. split; auto. intros j Hj. apply node_snoc in Hj as [Hj|[_ Hj]].
           ++ now apply (H2 j).
           ++ apply app_inj_tail in Hj as [Hj _]. subst v. apply Hne. eapply Tuniq; eauto.
        -- right. now apply node_app.
    + exists (mkst (fun _ => FAIL) START [] (length u + 1)). split.
      { rewrite nth_error_upd_other.
        - rewrite Tlen, nth_error_app2, Nat.sub_diag by lia. reflexivity.
        - apply node_lt in Hid. lia. }
      simpl. repeat split.
      * rewrite app_length. reflexivity.
      * rewrite own_nil; auto. intros k Hin. destruct (Tpats k _ Hin) as [j Hj]. now apply (Hnot j).
      * intros c. left. split; auto. intros j Hj. apply node_snoc in Hj as [Hj|[_ Hj]].
        -- destruct (Tclosed _ _ _ Hj) as [j' Hj']. now apply (Hnot j').
        -- apply (f_equal (@length byte)) in Hj. rewrite !app_length in Hj. simpl in Hj. lia.
Qed.

(** The walk of one pattern. *)
Lemma trie_walk_ok {E} P p : forall ws sts id u,
  trie P ws sts -> node ws id u ->
  exists ws' sts' id', @trie_walk E sts id (length u) p = Ok (sts', id') /\
    trie P ws' sts' /\ node ws' id' (u ++ p) /\
    (forall v, (exists i, node ws' i v) <-> (exists i, node ws i v) \/ (prefix u v /\ prefix v (u ++ p))).
Proof.
  induction p as [|b p IH]; intros ws sts id u T Hid.
  - exists ws, sts, id. rewrite app_nil_r. simpl. split; [reflexivity|].
    split; [exact T|]. split; [exact Hid|]. intros v. split; [now left|].
    + intros [H|[[t ->] [t' Ht]]]; auto. exists id. rewrite <- app_assoc in Ht.
      apply (f_equal (skipn (length u))) in Ht. rewrite !skipn_app, skipn_all, Nat.sub_diag in Ht.
      simpl in Ht. symmetry in Ht. apply app_eq_nil in Ht as [-> _]. now rewrite app_nil_r.
  - simpl. destruct (tr_st _ _ _ T id u Hid) as (s & Hs & _ & _ & _ & Htr).
    unfold state. rewrite Hs. simpl.
    assert (Happ : u ++ b :: p = (u ++ [b]) ++ p) by (now rewrite <- app_assoc).
    destruct (Htr b) as [[Hb Hnot]|Hb].
    + rewrite Hb. simpl.
      pose proof (trie_push P ws sts id u b s T Hid Hs Hb) as T'.
      unfold state_mut. rewrite app_length. simpl.
      assert (Hlt : id < length sts) by (rewrite <- (tr_len _ _ _ T); now apply node_lt in Hid).
      replace (id <? length sts + 1) with true by (symmetry; apply Nat.ltb_lt; lia). simpl.
      destruct (IH _ _ (length sts) (u ++ [b]) T') as (ws' & sts' & id' & HW & T2 & Hn & Hset).
      { rewrite <- (tr_len _ _ _ T). apply node_new. pose proof (node_lt _ _ _ (tr_root _ _ _ T)).
        unfold START in *. lia. }
      rewrite app_length in HW. simpl in HW. exists ws', sts', id'. split; [exact HW|].
      split; [exact T2|]. rewrite Happ. split; [exact Hn|]. intros v. rewrite Hset. split.
      * intros [[i Hi]|[H1 H2]].
        -- apply node_snoc in Hi as [Hi|[_ ->]]; [left; eauto|]. right. split.
           ++ apply prefix_app.
           ++ apply prefix_app.
        -- right. split; auto. eapply prefix_trans; [apply prefix_app|exact H1].
      * intros [[i Hi]|[[t ->] H2]].
        -- left. exists i. now apply node_app.
        -- destruct t as [|c t].
           ++ left. exists id. rewrite app_nil_r. now apply node_app.
           ++ right. assert (c = b).
              { destruct H2 as [t' Ht]. rewrite <- !app_assoc in Ht. apply app_inv_head in Ht.
                simpl in Ht. congruence. }
              subst c. split; auto. exists t. now rewrite <- app_assoc.
    + destruct (st_trans s b =? FAIL) eqn:EF.
      { apply Nat.eqb_eq in EF. rewrite EF in Hb. destruct Hb as [Hb _]. unfold FAIL in Hb. lia. }
      destruct (IH _ _ (st_trans s b) (u ++ [b]) T Hb) as (ws' & sts' & id' & HW & T2 & Hn & Hset).
      rewrite app_length in HW. simpl in HW. exists ws', sts', id'. split; [exact HW|].
      split; [exact T2|]. rewrite Happ. split; [exact Hn|]. intros v. rewrite Hset. split.
      * intros [[i Hi]|[H1 H2]]; [left; eauto|]. right. split; auto.
        eapply prefix_trans; [apply prefix_app|exact H1].
      * intros [[i Hi]|[[t ->] H2]]; [left; eauto|].
        destruct t as [|c t].
        -- left. exists id. now rewrite app_nil_r.
        -- right. assert (c = b).
           { destruct H2 as [t' Ht]. rewrite <- !app_assoc in Ht. apply app_inv_head in Ht.
             simpl in Ht. congruence. }
           subst c. split; auto. exists t. now rewrite <- app_assoc.
Qed.

Definition nodes_are (P : list (nat * str)) (ws : list str) : Prop :=
  forall v, (exists i, node ws i v) <-> Node P v.

Lemma own_snoc P k p u :
  own (P ++ [(k, p)]) u = own P u ++ (if str_eqb p u then [mkpat k (length p)] else []).
Proof.
  unfold own. rewrite filter_app, map_app. simpl. now destruct (str_eqb p u).
Qed.

Lemma build_trie_ok {E} Q : forall P ws sts, trie P ws sts -> nodes_are P ws ->
  exists ws' sts', @build_initial_trie E sts Q = Ok sts' /\ trie (P ++ Q) ws' sts' /\
    nodes_are (P ++ Q) ws'.
Proof.
  induction Q as [|[k p] Q IH]; intros P ws sts T HN.
  - exists ws, sts. rewrite app_nil_r. auto.
  - simpl. destruct (@trie_walk_ok E P p ws sts START [] T (tr_root _ _ _ T))
      as (ws1 & sts1 & id & HW & T1 & Hn & Hset).
    simpl in HW, Hn. rewrite HW. simpl.
    assert (Hlt : id < length sts1) by (rewrite <- (tr_len _ _ _ T1); now apply node_lt in Hn).
    unfold state_mut. replace (id <? length sts1) with true by (symmetry; now apply Nat.ltb_lt).
    simpl.
    assert (T2 : trie (P ++ [(k, p)]) ws1 (upd id (push_match (mkpat k (length p))) sts1)).
    { destruct T1 as [Tlen Troot Tuniq Tclosed Tpats Tdead Tst]. constructor; auto.
      - now rewrite upd_length.
      - intros k' p' Hin. apply in_app_or in Hin as [Hin|[Hin|[]]]; eauto. inversion Hin; subst. eauto.
      - destruct Tdead as (sd & H1 & H2). exists sd. split; auto. rewrite nth_error_upd_other; auto.
        destruct Hn. unfold DEAD. lia.
      - intros i u Hi. destruct (Tst i u Hi) as (s & Hs & Hd & Hm & Hf & Htr).
        destruct (Nat.eq_dec i id) as [->|Hne].
        + assert (u = p) by (eapply node_fun; eauto). subst u.
          exists (push_match (mkpat k (length p)) s). split; [now apply nth_error_upd_same|].
          simpl. rewrite own_snoc, str_eqb_refl, Hm. auto.
        + exists s. rewrite nth_error_upd_other by congruence. repeat split; auto.
          rewrite own_snoc, Hm. replace (str_eqb p u) with false; [now rewrite app_nil_r|].
          symmetry. apply str_eqb_neq. intros ->. apply Hne. eapply Tuniq; eauto. }
    assert (N2 : nodes_are (P ++ [(k, p)]) ws1).
    { intros v. rewrite Hset, (HN v). unfold Node, is_pat. split.
      - intros [[->|(q & [k' Hq] & Hp)]|[_ Hp]]; auto.
        + right. exists q. split; auto. exists k'. apply in_or_app. now left.
        + right. exists p. split; auto. exists k. apply in_or_app. right. now left.
      - intros [->|(q & [k' Hq] & Hp)]; [left; now left|]. apply in_app_or in Hq as [Hq|[Hq|[]]].
        + left. right. exists q. split; auto. now exists k'.
        + inversion Hq; subst. right. split; auto. now exists v. }
    destruct (IH _ _ _ T2 N2) as (ws' & sts' & HB & T3 & N3).
    exists ws', sts'. rewrite <- app_assoc in T3, N3. simpl in T3, N3. auto.
Qed.

(** ** Failure links *)

Lemma all_bytes_In b : In b all_bytes.
Proof.
  unfold all_bytes. apply in_map_iff. exists (Byte.to_nat b). split.
  - now rewrite Byte.of_to_nat.
  - apply in_seq. pose proof (Byte.to_nat_bounded b). lia.
Qed.

Lemma all_bytes_NoDup : NoDup all_bytes.
Proof.
  apply (NoDup_map_inv Byte.to_nat).
  replace (map Byte.to_nat all_bytes) with (seq 0 256) by (vm_compute; reflexivity).
  apply seq_NoDup.
Qed.

Lemma NoDup_app_comm_one {A} (l : list A) x : NoDup l -> ~ In x l -> NoDup (l ++ [x]).
Proof.
  intros H Hx. apply (NoDup_Add (a := x) (l := l)).
  - rewrite <- (app_nil_r l) at 1. apply Add_app.
  - auto.
Qed.

#[local] Opaque all_bytes.

Section Fill.
Variable P : list (nat * str).
Hypothesis P_nonempty : forall k p, In (k, p) P -> p <> [].
Variable ws : list str.
Hypothesis Hroot : node ws START [].
Hypothesis Huniq : forall i j u, node ws i u -> node ws j u -> i = j.
Hypothesis Hnodes : nodes_are P ws.

Notation Node := (Node P).
Notation target := (target P).

(** Transitions and depths of the finished trie. *)
Record skel (sts : automaton) : Prop := mkskel {
  sk_len : length ws = length sts;
  sk_dead : exists s, nth_error sts DEAD = Some s /\ (forall b, st_trans s b = DEAD)
                      /\ st_matches s = [] /\ st_depth s = 0;
  sk_root : exists s, nth_error sts START = Some s /\ st_matches s = [];
  sk_st : forall i u, node ws i u -> exists s, nth_error sts i = Some s /\
    st_depth s = length u /\
    (forall b, (~ Node (u ++ [b]) /\ st_trans s b = match u with [] => START | _ => FAIL end) \/
               node ws (st_trans s b) (u ++ [b]))
}.

Definition st_id (r : option str) (j : nat) : Prop :=
  match r with Some v => node ws j v | None => j = DEAD end.

Definition fail_ok (sts : automaton) (i : nat) (u : str) : Prop :=
  exists s r, nth_error sts i = Some s /\ target u 1 r /\ st_id r (st_fail s).

Definition match_ok (sts : automaton) (i : nat) (u : str) : Prop :=
  exists s, nth_error sts i = Some s /\
    match hd_error (st_matches s) with
    | Some pt => exists p, reports P u p /\ hd_error (own P p) = Some pt
    | None => forall p, ~ reports P u p
    end.

Definition fails_upto (sts : automaton) (k : nat) : Prop :=
  forall i u, node ws i u -> u <> [] -> length u <= k -> fail_ok sts i u.

Lemma node_exists u : Node u -> exists i, node ws i u.
Proof. intros H. now apply Hnodes. Qed.

Lemma node_Node i u : node ws i u -> Node u.
Proof. intros H. apply Hnodes. eauto. Qed.

Lemma depth_bound sts i u : skel sts -> node ws i u -> length u + 3 <= length sts.
Proof.
  intros HS Hn. rewrite <- (sk_len _ HS).
  assert (Hl : 2 < length ws) by (apply (node_lt _ _ _ Hroot)).
  assert (H : length (map (fun n => firstn n u) (seq 0 (S (length u)))) <= length (skipn 2 ws)).
  { apply NoDup_incl_length.
    - apply (NoDup_map_inv (@length byte)). rewrite map_map.
      replace (map (fun x => length (firstn x u)) (seq 0 (S (length u)))) with (seq 0 (S (length u))).
      + apply seq_NoDup.
      + rewrite <- (map_id (seq 0 (S (length u)))) at 1. apply map_ext_in. intros a Ha.
        apply in_seq in Ha. rewrite firstn_length. lia.
    - intros v Hv. apply in_map_iff in Hv as (n & <- & Hn2).
      destruct (node_exists (firstn n u)) as [j [Hj1 Hj2]].
      { eapply Node_prefix; [|eapply node_Node; eauto]. exists (skipn n u). now rewrite firstn_skipn. }
      apply nth_error_In with (j - 2). rewrite <- Hj2.
      rewrite <- (firstn_skipn 2 ws) at 2. rewrite nth_error_app2; rewrite firstn_length_le by lia; auto. }
  rewrite map_length, seq_length, skipn_length in H. lia.
Qed.

Lemma fail_chain_dead {E} sts fuel b : skel sts -> 0 < fuel -> @fail_chain E fuel sts DEAD b = Ok DEAD.
Proof.
  intros HS Hf. destruct fuel; [lia|]. simpl. destruct (sk_dead _ HS) as (s & Hs & Ht & _).
  unfold state. rewrite Hs. simpl. now rewrite Ht.
Qed.

Lemma target_len w lo v : target w lo (Some v) -> length v + lo <= length w /\ Node v.
Proof.
  intros H. inversion H as [k (H1 & (H2 & H3 & H4) & _)|]; subst. rewrite skipn_length. split; [lia|auto].
Qed.

Lemma fail_chain_ok {E} sts : skel sts -> forall fuel id u b, node ws id u -> fails_upto sts (length u) ->
  length u + 2 <= fuel ->
  exists j r, @fail_chain E fuel sts id b = Ok j /\ target (u ++ [b]) 0 r /\ st_id r j.
Proof.
  intros HS. induction fuel as [|fuel IH]; intros id u b Hn Hf Hfuel; [lia|].
  destruct (sk_st _ HS id u Hn) as (s & Hs & Hd & Ht). simpl. unfold state. rewrite Hs. simpl.
  destruct (Ht b) as [[Hno Htr]|Hc].
  - destruct u as [|c u'].
    + rewrite Htr. simpl. exists START, (Some []). split; auto. split; [|exact Hroot].
      apply target_byte; auto.
    + rewrite Htr. simpl. destruct (Hf id (c :: u') Hn) as (s' & r & Hs' & Htg & Hid); [discriminate|lia|].
      rewrite Hs in Hs'. injection Hs' as <-.
      assert (Hpat : forall i, i < 1 -> ~ is_pat P (skipn i ((c :: u') ++ [b]))).
      { intros i Hi. assert (i = 0) by lia. subst. simpl. intros Hp. apply Hno. now apply Node_pat. }
      destruct r as [v|]; simpl in Hid.
      * destruct (target_len _ _ _ Htg) as [Hlen HNv].
        destruct (IH (st_fail s) v b Hid) as (j & r & HF & Htg2 & Hj).
        { intros i w Hw1 Hw2 Hw3. apply Hf; auto. lia. }
        { lia. }
        exists j, r. split; auto. split; auto. apply (target_from_1 P P_nonempty (c :: u') b); auto.
        eapply target_snoc; eauto. simpl. lia.
      * rewrite Hid. exists DEAD, None. split; [apply fail_chain_dead; auto; lia|]. split; [|reflexivity].
        apply (target_from_1 P P_nonempty (c :: u') b); auto. apply target_snoc_dead; auto. simpl. lia.
  - assert (st_trans s b =? FAIL = false) as ->.
    { apply Nat.eqb_neq. destruct Hc as [Hc _]. unfold FAIL. lia. }
    exists (st_trans s b), (Some (u ++ [b])). split; auto. split; [|exact Hc].
    apply target_node; [exact P_nonempty|]. eapply node_Node; eauto.
Qed.

(** Updates that keep the skeleton. *)
Lemma skel_upd sts id u f : skel sts -> node ws id u -> u <> [] ->
  (forall s, st_trans (f s) = st_trans s /\ st_depth (f s) = st_depth s) -> skel (upd id f sts).
Proof.
  intros [S1 S2 S3 S4] Hn Hu Hf.
  assert (id <> DEAD) by (destruct Hn; unfold DEAD; lia).
  assert (id <> START).
  { intros ->. apply Hu. eapply node_fun; eauto. }
  constructor.
  - now rewrite upd_length.
  - destruct S2 as (s & H1 & H2). exists s. now rewrite nth_error_upd_other.
  - destruct S3 as (s & H1 & H2). exists s. now rewrite nth_error_upd_other.
  - intros i v Hi. destruct (S4 i v Hi) as (s & H1 & H2 & H3). destruct (Nat.eq_dec id i) as [->|Hne].
    + exists (f s). destruct (Hf s) as [-> ->]. split; [now apply nth_error_upd_same|auto].
    + exists s. now rewrite nth_error_upd_other.
Qed.

Lemma fail_ok_other sts id f i u : i <> id -> fail_ok sts i u -> fail_ok (upd id f sts) i u.
Proof.
  intros Hne (s & r & H1 & H2). exists s, r. rewrite nth_error_upd_other by congruence. auto.
Qed.
Lemma match_ok_other sts id f i u : i <> id -> match_ok sts i u -> match_ok (upd id f sts) i u.
Proof.
  intros Hne (s & H1 & H2). exists s. rewrite nth_error_upd_other by congruence. auto.
Qed.

(** Invariant: [A] is the list of states whose failure link is final, [par u b] the
    edges already processed. *)
Record filled (sts : automaton) (A : list nat) (par : str -> byte -> Prop) : Prop := mkfilled {
  fi_skel : skel sts;
  fi_nodup : NoDup A;
  fi_node : forall i, In i A -> exists u, node ws i u /\ u <> [];
  fi_ok : forall i u, In i A -> node ws i u -> fail_ok sts i u /\ match_ok sts i u;
  fi_todo : forall i u, ~ In i A -> node ws i u -> u <> [] ->
            exists s, nth_error sts i = Some s /\ st_fail s = START /\ st_matches s = own P u;
  fi_par : forall i u b, node ws i (u ++ [b]) -> (In i A <-> par u b)
}.

Lemma own_pat u : own P u <> [] <-> is_pat P u.
Proof.
  unfold own, is_pat. split.
  - intros H. destruct (filter (fun kp => str_eqb (snd kp) u) P) as [|[k p] l] eqn:E; [contradiction|].
    assert (Hin : In (k, p) (filter (fun kp => str_eqb (snd kp) u) P)) by (rewrite E; now left).
    apply filter_In in Hin as [Hin Hp]. simpl in Hp. apply str_eqb_eq in Hp. subst. eauto.
  - intros [k Hk] H. assert (Hin : In (k, u) (filter (fun kp => str_eqb (snd kp) u) P)).
    { apply filter_In. split; auto. simpl. apply str_eqb_refl. }
    destruct (filter (fun kp => str_eqb (snd kp) u) P); [contradiction|discriminate].
Qed.

Lemma prefix_pat_dead u p : is_pat P p -> prefix p u -> target u 1 None.
Proof.
  intros Hp Hpre. apply TgDead. intros k Hk (_ & _ & Ho). apply (Ho 0); [lia|]. exists p. auto.
Qed.

(** Matches of a state whose failure link is DEAD or that has its own pattern. *)
Lemma match_own u s : target u 1 None \/ is_pat P u -> st_matches s = own P u ->
  match hd_error (st_matches s) with
  | Some pt => exists p, reports P u p /\ hd_error (own P p) = Some pt
  | None => forall p, ~ reports P u p
  end.
Proof.
  intros H Hm. rewrite Hm. destruct (own P u) as [|pt l] eqn:E; simpl.
  - intros p (d & Hg & Hd & Hp). destruct H as [H|H].
    + inversion H as [|Hn]; subst. destruct d as [|d].
      * simpl in Hp. apply own_pat in Hp. contradiction.
      * apply (Hn (S d)); auto. lia.
    + apply own_pat in H. contradiction.
  - exists u. rewrite E. split; auto. assert (is_pat P u) by (apply own_pat; rewrite E; discriminate).
    exists 0. repeat split; auto; try lia. now apply Node_pat.
Qed.

Lemma is_match_pat s u : st_matches s = own P u -> (is_match s = true <-> is_pat P u).
Proof.
  intros H. rewrite <- own_pat. unfold is_match. rewrite H. destruct (own P u); split; congruence.
Qed.

Lemma own_len u pt l : own P u = pt :: l -> pat_len pt = length u.
Proof.
  unfold own. destruct (filter (fun kp => str_eqb (snd kp) u) P) as [|[k p] l'] eqn:E; [discriminate|].
  simpl. intros H. injection H as <- _. simpl.
  assert (Hin : In (k, p) (filter (fun kp => str_eqb (snd kp) u) P)) by (rewrite E; now left).
  apply filter_In in Hin as [_ Hp]. simpl in Hp. apply str_eqb_eq in Hp. now subst.
Qed.

Lemma assign_next sts A par next w f par' :
  filled sts A par -> node ws next w -> w <> [] -> ~ In next A ->
  (forall s, st_trans (f s) = st_trans s /\ st_depth (f s) = st_depth s) ->
  fail_ok (upd next f sts) next w -> match_ok (upd next f sts) next w ->
  (forall i u b, node ws i (u ++ [b]) -> (In i A \/ i = next <-> par' u b)) ->
  filled (upd next f sts) (A ++ [next]) par'.
Proof.
  intros F Hn Hw Hnin Hf Hfo Hmo Hpar. destruct F as [F1 F2 F3 F4 F5 F6]. constructor.
  - eapply skel_upd; eauto.
  - apply NoDup_app_comm_one; auto.
  - intros i Hi. apply in_app_or in Hi as [Hi|[<-|[]]]; eauto.
  - intros i u Hi Hu. apply in_app_or in Hi as [Hi|[<-|[]]].
    + destruct (F4 i u Hi Hu) as [H1 H2]. assert (i <> next) by congruence.
      split; [now apply fail_ok_other|now apply match_ok_other].
    + assert (u = w) by (eapply node_fun; eauto). subst. auto.
  - intros i u Hi Hu Hne. assert (i <> next).
    { intros ->. apply Hi. apply in_or_app. right. now left. }
    destruct (F5 i u) as (s & H1 & H2); auto.
    { intros Hin. apply Hi. apply in_or_app. now left. }
    exists s. rewrite nth_error_upd_other by congruence. auto.
  - intros i u b Hi. rewrite <- (Hpar i u b Hi). rewrite in_app_iff. simpl. intuition congruence.
Qed.

Lemma filled_par sts A par par' : filled sts A par ->
  (forall i u b, node ws i (u ++ [b]) -> (par u b <-> par' u b)) -> filled sts A par'.
Proof.
  intros [F1 F2 F3 F4 F5 F6] H. constructor; auto. intros i u b Hi. rewrite <- (H i u b Hi). eauto.
Qed.

Lemma upd_id {A} (l : list A) i : upd i (fun s => s) l = l.
Proof. revert i. induction l as [|x l IH]; intros [|i]; simpl; auto. now rewrite IH. Qed.

Lemma upd_upd {A} (l : list A) i f g : upd i g (upd i f l) = upd i (fun s => g (f s)) l.
Proof. revert i. induction l as [|x l IH]; intros [|i]; simpl; auto. now rewrite IH. Qed.

Lemma reports_nil p : ~ reports P [] p.
Proof.
  intros (d & _ & Hd & Hp). rewrite skipn_nil in Hd. subst. now apply (pat_nonempty P P_nonempty) in Hp.
Qed.

Lemma node_lt_sts sts i u : skel sts -> node ws i u -> i <? length sts = true.
Proof. intros H Hi. apply Nat.ltb_lt. rewrite <- (sk_len _ H). now apply node_lt in Hi. Qed.

Lemma target_1_byte b : ~ is_pat P [b] -> target [b] 1 (Some []).
Proof.
  intros Hb. change (@nil byte) with (skipn 1 [b]). apply TgNode. split; [lia|]. split; [|intros; lia].
  split; [simpl; lia|]. split; [now left|]. intros i Hi (p & Hp & t & Ht). assert (i = 0) by lia. subst.
  simpl in Ht. pose proof (pat_nonempty P P_nonempty p Hp).
  destruct p as [|c p]; [contradiction|]. simpl in Ht. injection Ht as -> Ht.
  symmetry in Ht. apply app_eq_nil in Ht as [-> _]. contradiction.
Qed.

Lemma app_one_nil (b b' : byte) : forall u', [b] = u' ++ [b'] -> u' = [] /\ b = b'.
Proof.
  intros u' H. change [b] with ([] ++ [b]) in H. apply app_inj_tail in H. intuition congruence.
Qed.

Lemma init_queue_ok {E} bytes : forall sts q done, NoDup (done ++ bytes) ->
  filled sts (map fst q) (fun u b => u = [] /\ In b done) ->
  Forall (fun e => snd e = None /\ exists b, node ws (fst e) [b]) q ->
  exists sts' q', @init_queue E bytes sts q = Ok (sts', q') /\
    filled sts' (map fst q') (fun u b => u = [] /\ In b (done ++ bytes)) /\
    Forall (fun e => snd e = None /\ exists b, node ws (fst e) [b]) q'.
Proof.
  induction bytes as [|b bytes IH]; intros sts q done ND F FQ.
  - exists sts, q. rewrite app_nil_r. auto.
  - assert (HS := fi_skel _ _ _ F).
    destruct (sk_st _ HS START [] Hroot) as (s & Hs & Hd & Ht). simpl. unfold state at 1. rewrite Hs. simpl.
    replace (done ++ b :: bytes) with ((done ++ [b]) ++ bytes) in ND |- * by now rewrite <- app_assoc.
    assert (Hbd : ~ In b done).
    { intros Hin. rewrite <- app_assoc in ND. simpl in ND. apply NoDup_remove_2 in ND. apply ND.
      apply in_or_app. now left. }
    destruct (Ht b) as [[Hno Htr]|Hc].
    + rewrite Htr. simpl. apply IH; auto. eapply filled_par; [exact F|]. intros i u b' Hi. cbv beta.
      split; intros [-> Hb']; split; auto.
      * apply in_or_app. now left.
      * apply in_app_or in Hb' as [Hb'|[<-|[]]]; auto. exfalso. apply Hno. eapply node_Node. exact Hi.
    + simpl in Hc. set (next := st_trans s b) in *.
      assert (Hne : next <> START).
      { intros He. rewrite He in Hc. pose proof (node_fun _ _ _ _ Hc Hroot). discriminate. }
      replace (next =? START) with false by (symmetry; now apply Nat.eqb_neq).
      destruct (sk_root _ HS) as (s' & Hs' & Hm). rewrite Hs in Hs'. injection Hs' as <-.
      assert (is_match s = false) as -> by (unfold is_match; now rewrite Hm).
      assert (Hnin : ~ In next (map fst q)).
      { intros Hin. apply (fi_par _ _ _ F next [] b Hc) in Hin. tauto. }
      destruct (fi_todo _ _ _ F next [b] Hnin Hc) as (sn & Hsn & Hf & Hmn); [discriminate|].
      unfold state. rewrite Hsn. simpl.
      assert (Hpar : forall i u c, node ws i (u ++ [c]) ->
        (In i (map fst q) \/ i = next <-> u = [] /\ In c (done ++ [b]))).
      { intros i u c Hi. rewrite in_app_iff. simpl. split.
        - intros [Hin| ->]; [apply (fi_par _ _ _ F i u c Hi) in Hin; tauto|].
          destruct (app_one_nil b c u) as [-> ->]; [eapply node_fun; eauto|]. auto.
        - intros [-> [Hin|[<-|[]]]].
          + left. apply (fi_par _ _ _ F i [] c Hi). auto.
          + right. eapply Huniq; eauto. }
      assert (FQ' : Forall (fun e => snd e = None /\ exists b, node ws (fst e) [b]) (q ++ [(next, None)])).
      { apply Forall_app. split; auto. constructor; auto. simpl. split; eauto. }
      destruct (is_match sn) eqn:Em.
      * assert (Hp : is_pat P [b]) by (eapply is_match_pat; eauto).
        unfold state_mut. rewrite (node_lt_sts _ _ _ HS Hc). simpl. apply IH; auto. rewrite map_app. simpl.
        assert (Hdead : target [b] 1 None) by (eapply prefix_pat_dead; eauto using prefix_refl).
        eapply assign_next; eauto; try discriminate.
        -- exists (set_fail DEAD sn), None. split; [now apply nth_error_upd_same|]. split; [auto|reflexivity].
        -- exists (set_fail DEAD sn). split; [now apply nth_error_upd_same|]. apply match_own; auto.
      * assert (Hp : ~ is_pat P [b]).
        { intros Hp. eapply is_match_pat in Hp; eauto. congruence. }
        simpl. apply IH; auto. rewrite map_app. simpl. rewrite <- (upd_id sts next).
        assert (Htg := target_1_byte b Hp).
        eapply assign_next; eauto; try discriminate; rewrite ?upd_id.
        -- exists sn, (Some []). rewrite Hf. split; [auto|]. split; [auto|exact Hroot].
        -- exists sn. split; auto. unfold is_match in Em. destruct (st_matches sn); [|discriminate]. simpl.
           intros p Hr. apply (reports_shift P P_nonempty _ _ _ Htg) in Hr. now apply reports_nil in Hr.
Qed.

Definition mdok (md : option nat) (w : str) : Prop :=
  match md with None => True | Some d => d = 1 /\ exists p, is_pat P p /\ prefix p w end.

Definition upto (A : list nat) (k : nat) : Prop :=
  forall i v, node ws i v -> v <> [] -> length v <= k -> In i A.

Lemma upto_fails sts A par k : filled sts A par -> upto A k -> fails_upto sts k.
Proof.
  intros F U i u Hi Hu Hk. apply (fi_ok _ _ _ F i u); auto. eapply U; eauto.
Qed.

Lemma fill_byte_ok {E} sts A par q curr u md b :
  filled sts A par -> upto A (length u) -> node ws curr u -> u <> [] -> mdok md u -> ~ par u b ->
  exists sts' app, @fill_byte E sts q curr md b = Ok (sts', q ++ app) /\
    filled sts' (A ++ map fst app) (fun u' b' => par u' b' \/ (u' = u /\ b' = b)) /\
    Forall (fun e => node ws (fst e) (u ++ [b]) /\ mdok (snd e) (u ++ [b])) app /\
    (app = [] -> ~ Node (u ++ [b])).
Proof.
  intros F U Hcurr Hu Hmd Hpar. assert (HS := fi_skel _ _ _ F).
  assert (HF := upto_fails _ _ _ _ F U).
  destruct (sk_st _ HS curr u Hcurr) as (s & Hs & Hd & Ht). unfold fill_byte. unfold state at 1. rewrite Hs.
  simpl. destruct (Ht b) as [[Hno Htr]|Hc].
  - destruct u as [|c0 u']; [contradiction|]. rewrite Htr. simpl. exists sts, []. rewrite !app_nil_r.
    split; auto. split; [|split; [constructor|auto]].
    eapply filled_par; [exact F|]. intros i v b' Hi. cbv beta. split; auto.
    intros [H|[-> ->]]; auto. exfalso. apply Hno. eapply node_Node; eauto.
  - set (next := st_trans s b) in *. set (w := u ++ [b]) in *.
    assert (Hw : w <> []) by (unfold w; now destruct u).
    assert (Hlw : length w = length u + 1) by (unfold w; rewrite app_length; reflexivity).
    assert (next =? FAIL = false) as ->.
    { apply Nat.eqb_neq. destruct Hc as [Hc _]. unfold FAIL. lia. }
    assert (Hnin : ~ In next A).
    { intros Hin. apply (fi_par _ _ _ F next u b Hc) in Hin. contradiction. }
    destruct (fi_todo _ _ _ F next w Hnin Hc Hw) as (sn & Hsn & Hfn & Hmn).
    destruct (sk_st _ HS next w Hc) as (sn' & Hsn' & Hdn & _). rewrite Hsn in Hsn'. injection Hsn' as <-.
    unfold state at 1. rewrite Hsn. simpl.
    assert (Hnmd : exists nmd, @bind E _ _ (match md with
      | Some d => Ok (Some d)
      | None => if is_match sn then
          let* l := unwrap (option_map pat_len (hd_error (st_matches sn))) in
          let* d := usub (st_depth sn) l in Ok (Some (d + 1))
        else Ok None end) (@Ok E _) = Ok nmd /\ mdok nmd w /\ (nmd = None -> ~ is_pat P w)).
    { destruct md as [d|].
      - exists (Some d). split; auto. destruct Hmd as (-> & p & Hp & Hpre). split; [|discriminate].
        split; auto. exists p. split; auto. eapply prefix_trans; eauto. apply prefix_app.
      - destruct (is_match sn) eqn:Em.
        + assert (Hp : is_pat P w) by (eapply is_match_pat; eauto).
          rewrite Hmn. destruct (own P w) as [|pt l] eqn:Eo; [now apply own_pat in Hp|].
          simpl. rewrite (own_len _ _ _ Eo), Hdn. unfold usub. rewrite Nat.ltb_irrefl. simpl.
          exists (Some (length w - length w + 1)). split; auto. split; [|discriminate].
          split; [lia|]. exists w. split; auto using prefix_refl.
        + exists None. split; auto. split; [exact I|]. intros _ Hp. eapply is_match_pat in Hp; eauto.
          congruence. }
    destruct Hnmd as (nmd & Hnm & Hmdw & Hnone).
    assert (Hnm2 : match md with
      | Some d => Ok (Some d)
      | None => if is_match sn then
          let* l := unwrap (option_map pat_len (hd_error (st_matches sn))) in
          let* d := usub (st_depth sn) l in Ok (Some (d + 1))
        else Ok None end = @Ok E _ nmd).
    { revert Hnm. match goal with |- bind ?x _ = _ -> _ => destruct x end; simpl; congruence. }
    rewrite Hnm2. simpl. clear Hnm Hnm2.
    (* the failure chain *)
    destruct (HF curr u Hcurr Hu (Nat.le_refl _)) as (s' & r & Hs' & Htg & Hid).
    rewrite Hs in Hs'. injection Hs' as <-.
    assert (Hchain : exists j r2, @fail_chain E (length sts) sts (st_fail s) b = Ok j /\ st_id r2 j /\
              (~ is_pat P w -> target w 1 r2) /\
              match r2 with Some v2 => length v2 <= length u | None => True end).
    { destruct r as [v|]; simpl in Hid.
      - destruct (target_len _ _ _ Htg) as [Hlv HNv].
        destruct (@fail_chain_ok E sts HS (length sts) (st_fail s) v b Hid) as (j & r2 & Hch & Htg2 & Hj).
        { intros i v' H1 H2 H3. apply HF; auto. lia. }
        { pose proof (depth_bound sts _ _ HS Hid). lia. }
        exists j, r2. split; auto. split; auto. split.
        + intros Hnp. eapply target_snoc; eauto; [lia|]. intros i Hi. assert (i = 0) by lia. now subst.
        + destruct r2 as [v2|]; auto. apply target_len in Htg2 as [Htg2 _].
          rewrite app_length in Htg2. simpl in Htg2. lia.
      - exists DEAD, None. rewrite Hid. split.
        + apply fail_chain_dead; auto. pose proof (depth_bound sts _ _ HS Hcurr). lia.
        + split; [reflexivity|]. split; auto. intros _. apply target_snoc_dead; auto. destruct u; [easy|simpl; lia]. }
    destruct Hchain as (j & r2 & Hch & Hj & Htg2 & Hr2). rewrite Hch. simpl.
    assert (Hsj : exists sj, nth_error sts j = Some sj /\ st_depth sj <= length u /\ j <> next /\
              (r2 = None \/ r2 = Some [] -> st_matches sj = [])).
    { destruct r2 as [v2|]; simpl in Hj.
      - destruct (sk_st _ HS j v2 Hj) as (sj & Hsj & Hdj & _). exists sj. split; auto. split; [lia|].
        split.
        + intros ->. pose proof (node_fun _ _ _ _ Hj Hc). subst v2. lia.
        + intros [?|H2]; [discriminate|]. injection H2 as ->. pose proof (Huniq _ _ _ Hj Hroot). subst j.
          destruct (sk_root _ HS) as (s0 & Hs0 & Hm0). congruence.
      - subst j. destruct (sk_dead _ HS) as (sd & Hsd & _ & Hm0 & Hd0). exists sd. split; auto.
        split; [lia|]. split; auto. destruct Hc. unfold DEAD. lia. }
    destruct Hsj as (sj & Hsj & Hdj & Hjn & Hmj).
    assert (Hpar' : forall i v c, node ws i (v ++ [c]) ->
        (In i A \/ i = next <-> par v c \/ v = u /\ c = b)).
    { intros i v c Hi. rewrite (fi_par _ _ _ F i v c Hi). split.
      - intros [H| ->]; auto. right. apply app_inj_tail. eapply node_fun; eauto.
      - intros [H|[-> ->]]; auto. right. eapply Huniq; eauto. }
    destruct nmd as [d|].
    + destruct Hmdw as (-> & p & Hp & Hpre). unfold state. rewrite Hsj. simpl.
      unfold usub. rewrite Hdn. replace (length w <? 1) with false by (symmetry; apply Nat.ltb_ge; lia).
      simpl. replace (st_depth sj <? length w - 1 + 1) with true by (symmetry; apply Nat.ltb_lt; lia).
      unfold state_mut. rewrite (node_lt_sts _ _ _ HS Hc). simpl.
      exists (upd next (set_fail DEAD) sts), [(next, Some 1)]. split; auto. simpl.
      assert (Hdead : target w 1 None) by (eapply prefix_pat_dead; eauto).
      split; [|split; [constructor; [|constructor]; simpl; split; [auto|split; eauto]|discriminate]].
      eapply assign_next; eauto.
      * exists (set_fail DEAD sn), None. split; [now apply nth_error_upd_same|]. split; [auto|reflexivity].
      * exists (set_fail DEAD sn). split; [now apply nth_error_upd_same|]. apply match_own; auto.
    + specialize (Hnone eq_refl). specialize (Htg2 Hnone).
      unfold state_mut. rewrite (node_lt_sts _ _ _ HS Hc). simpl.
      unfold copy_matches. replace (j =? next) with false by (symmetry; now apply Nat.eqb_neq).
      unfold state. rewrite nth_error_upd_other by congruence. rewrite Hsj. simpl.
      unfold state_mut. rewrite upd_length. rewrite (node_lt_sts _ _ _ HS Hc). simpl. rewrite upd_upd.
      eexists _, [(next, None)]. split; [reflexivity|]. simpl.
      split; [|split; [constructor; [|constructor]; simpl; split; [auto|exact I]|discriminate]].
      eapply assign_next; eauto.
      * eexists _, r2. split; [eapply nth_error_upd_same; eauto|]. simpl. auto.
      * eexists _. split; [eapply nth_error_upd_same; eauto|]. simpl. rewrite Hmn.
        assert (own P w = []) as ->.
        { destruct (own P w) eqn:Eo; auto. exfalso. apply Hnone. apply own_pat. congruence. }
        simpl. destruct r2 as [[|c v2]|].
        -- rewrite Hmj by auto. simpl. intros p Hr. apply (reports_shift P P_nonempty _ _ _ Htg2) in Hr.
           now apply reports_nil in Hr.
        -- simpl in Hj. destruct (fi_ok _ _ _ F j (c :: v2)) as [_ (sj' & Hsj' & Hmm)]; auto.
           { eapply U; eauto. discriminate. }
           rewrite Hsj in Hsj'. injection Hsj' as <-. destruct (hd_error (st_matches sj)) as [pt|].
           ++ destruct Hmm as (p & Hr & Ho). exists p. split; auto.
              now apply (reports_shift P P_nonempty _ _ _ Htg2).
           ++ intros p Hr. apply (reports_shift P P_nonempty _ _ _ Htg2) in Hr. now apply (Hmm p).
        -- rewrite Hmj by auto. simpl. intros p (d & Hg & Hdd & Hp).
           inversion Htg2 as [|Hn]; subst. destruct d as [|d]; [now apply Hnone|].
           apply (Hn (S d)); auto. lia.
Qed.

Lemma fill_bytes_ok {E} bytes : forall sts A par q curr u md,
  filled sts A par -> upto A (length u) -> node ws curr u -> u <> [] -> mdok md u ->
  NoDup bytes -> (forall b, In b bytes -> ~ par u b) ->
  exists sts' app, @fill_bytes E bytes sts q curr md = Ok (sts', q ++ app) /\
    filled sts' (A ++ map fst app) (fun u' b' => par u' b' \/ (u' = u /\ In b' bytes)) /\
    Forall (fun e => exists b, node ws (fst e) (u ++ [b]) /\ mdok (snd e) (u ++ [b])) app /\
    (app = [] -> forall b, In b bytes -> ~ Node (u ++ [b])).
Proof.
  induction bytes as [|b bytes IH]; intros sts A par q curr u md F U Hc Hu Hmd ND Hpar.
  - exists sts, []. rewrite !app_nil_r. split; auto. split; [|split; [constructor|simpl; tauto]].
    eapply filled_par; [exact F|]. intros i v c _. cbn. tauto.
  - inversion ND as [|? ? Hnb ND']; subst.
    destruct (@fill_byte_ok E sts A par q curr u md b F U Hc Hu Hmd) as (s1 & a1 & H1 & F1 & Q1 & N1).
    { apply Hpar. now left. }
    simpl. rewrite H1. simpl.
    destruct (IH s1 (A ++ map fst a1) _ (q ++ a1) curr u md F1) as (s2 & a2 & H2 & F2 & Q2 & N2); auto.
    { intros i v Hi Hv Hl. apply in_or_app. left. eapply U; eauto. }
    { intros c Hin [H|[_ ->]]; [|contradiction]. now apply (Hpar c); [right|]. }
    exists s2, (a1 ++ a2). rewrite H2, <- app_assoc. split; auto. split.
    + rewrite map_app, app_assoc. eapply filled_par; [exact F2|]. intros i v c _. cbn. intuition congruence.
    + split.
      * apply Forall_app. split; auto. eapply Forall_impl; [|exact Q1]. intros e He. exists b. exact He.
      * intros Ha. apply app_eq_nil in Ha as [Ha1 Ha2]. intros c [<-|Hin]; auto.
Qed.

Lemma filled_reassign sts A par i u f :
  filled sts A par -> node ws i u -> u <> [] -> In i A ->
  (forall s, st_trans (f s) = st_trans s /\ st_depth (f s) = st_depth s) ->
  fail_ok (upd i f sts) i u -> match_ok (upd i f sts) i u ->
  filled (upd i f sts) A par.
Proof.
  intros [F1 F2 F3 F4 F5 F6] Hn Hu Hin Hf Hfo Hmo. constructor; auto.
  - eapply skel_upd; eauto.
  - intros k v Hk Hv. destruct (Nat.eq_dec k i) as [->|Hne].
    + assert (v = u) by (eapply node_fun; eauto). subst. auto.
    + destruct (F4 k v Hk Hv). split; [now apply fail_ok_other|now apply match_ok_other].
  - intros k v Hk Hv Hvn. assert (k <> i) by congruence.
    destruct (F5 k v Hk Hv Hvn) as (s & H1 & H2). exists s. now rewrite nth_error_upd_other by congruence.
Qed.

Definition parD (done : list nat) (u : str) (b : byte) : Prop :=
  u = [] \/ exists j, In j done /\ node ws j u.

Definition depth_is (d : nat) (e : nat * option nat) : Prop :=
  exists v, node ws (fst e) v /\ length v = d /\ mdok (snd e) v.

Lemma fill_loop_ok {E} : forall fuel sts done qa qb D,
  1 <= D ->
  filled sts (done ++ map fst (qa ++ qb)) (parD done) ->
  Forall (depth_is D) qa -> Forall (depth_is (D + 1)) qb ->
  upto (done ++ map fst (qa ++ qb)) D ->
  length sts <= fuel + length done ->
  exists sts' done', @fill_loop E fuel sts (qa ++ qb) = Ok sts' /\ filled sts' done' (parD done').
Proof.
  induction fuel as [|fuel IH]; intros sts done qa qb D HD F QA QB U Hfuel.
  - destruct (qa ++ qb) as [|e q] eqn:Eq.
    + exists sts, done. simpl in F. rewrite app_nil_r in F. auto.
    + exfalso. simpl in Hfuel.
      assert (Hl : length (done ++ map fst (e :: q)) <= length (seq 0 (length sts))).
      { apply NoDup_incl_length; [apply (fi_nodup _ _ _ F)|]. intros i Hi.
        destruct (fi_node _ _ _ F i Hi) as (v & Hv & _). apply in_seq. split; [lia|]. simpl.
        rewrite <- (sk_len _ (fi_skel _ _ _ F)). now apply node_lt in Hv. }
      rewrite app_length, seq_length in Hl. simpl in Hl. lia.
  - (* choose qa nonempty *)
    assert (Hwlog : exists D' qa' qb', qa ++ qb = qa' ++ qb' /\ (qa' = [] -> qb' = []) /\ 1 <= D' /\
      Forall (depth_is D') qa' /\ Forall (depth_is (D' + 1)) qb' /\
      upto (done ++ map fst (qa ++ qb)) D').
    { destruct qa as [|e qa'].
      - exists (D + 1), qb, []. rewrite app_nil_r. split; auto. split; auto. split; [lia|].
        split; auto. split; [constructor|].
        intros i v Hi Hv Hl. destruct (Nat.le_gt_cases (length v) D) as [Hle|Hgt]; [eapply U; eauto|].
        destruct (rev v) as [|b rv] eqn:Er.
        { exfalso. apply Hv. rewrite <- (rev_involutive v), Er. reflexivity. }
        assert (Ev : v = rev rv ++ [b]) by (rewrite <- (rev_involutive v), Er; reflexivity).
        set (u := rev rv) in *. subst v. rewrite app_length in Hgt, Hl. simpl in Hgt, Hl.
        apply (fi_par _ _ _ F i u b Hi).
        right. destruct (node_exists u) as [j Hj].
        { eapply Node_prefix; [apply prefix_app|eapply node_Node; exact Hi]. }
        exists j. split; auto.
        assert (Hin : In j (done ++ map fst ([] ++ qb))).
        { eapply U; eauto; [|lia]. intros Hu. apply (f_equal (@length byte)) in Hu. simpl in Hu. lia. }
        apply in_app_or in Hin as [Hin|Hin]; auto. exfalso. simpl in Hin.
        apply in_map_iff in Hin as (e & <- & He). rewrite Forall_forall in QB.
        destruct (QB e He) as (v & Hv' & Hlv & _). pose proof (node_fun _ _ _ _ Hv' Hj). subst v. lia.
      - exists D, (e :: qa'), qb. split; auto. split; [discriminate|]. auto. }
    destruct Hwlog as (D' & qa' & qb' & Eq & Hne & HD' & QA' & QB' & U'). rewrite Eq in *.
    clear QA QB U D HD Eq qa qb.
    destruct qa' as [|[curr md] qa].
    { rewrite (Hne eq_refl) in *. simpl in *. rewrite app_nil_r in F. exists sts, done. auto. }
    inversion QA' as [|? ? (u & Hcu & Hlu & Hmd) QA2]; subst. simpl in Hcu, Hmd. cbn [app fill_loop].
    assert (Hu : u <> []) by (intros ->; simpl in HD'; lia).
    destruct (@fill_bytes_ok E all_bytes sts _ _ (qa ++ qb') curr u md F U' Hcu Hu Hmd all_bytes_NoDup)
      as (s1 & app & H1 & F1 & Q1 & N1).
    { intros b _ [->|(j & Hj & Hju)]; [contradiction|].
      assert (j = curr) by (eapply Huniq; eauto). subst j.
      pose proof (fi_nodup _ _ _ F) as ND. simpl in ND. apply NoDup_remove_2 in ND. apply ND.
      apply in_or_app. now left. }
    rewrite H1. simpl. assert (HS1 := fi_skel _ _ _ F1).
    destruct (sk_st _ HS1 curr u Hcu) as (sc & Hsc & _). unfold state. rewrite Hsc. simpl.
    assert (HA : (done ++ map fst (((curr, md) :: qa) ++ qb')) ++ map fst app
                 = (done ++ [curr]) ++ map fst (qa ++ (qb' ++ app))).
    { simpl. rewrite <- !app_assoc. simpl. f_equal. f_equal. rewrite !map_app, <- app_assoc. reflexivity. }
    assert (F2 : filled s1 ((done ++ [curr]) ++ map fst (qa ++ (qb' ++ app))) (parD (done ++ [curr]))).
    { rewrite <- HA. eapply filled_par; [exact F1|]. intros i v c Hi. cbn. unfold parD. split.
      - intros [[->|(j & Hj & Hjv)]|[-> _]]; auto.
        + right. exists j. split; auto. apply in_or_app. now left.
        + right. exists curr. split; auto. apply in_or_app. right. now left.
      - intros [->|(j & Hj & Hjv)]; auto. apply in_app_or in Hj as [Hj|[<-|[]]]; eauto.
        right. split; [eapply node_fun; eauto|apply all_bytes_In]. }
    assert (Hin : In curr ((done ++ [curr]) ++ map fst (qa ++ (qb' ++ app)))).
    { apply in_or_app. left. apply in_or_app. right. now left. }
    assert (Hstep : exists s2, (if (length ((qa ++ qb') ++ app) =? length (qa ++ qb')) && is_match sc
         then state_mut s1 curr (set_fail DEAD) else @Ok E _ s1) = Ok s2 /\ length s2 = length sts /\
         filled s2 ((done ++ [curr]) ++ map fst (qa ++ (qb' ++ app))) (parD (done ++ [curr]))).
    { assert (Hl1 : length s1 = length sts).
      { rewrite <- (sk_len _ HS1). apply (sk_len _ (fi_skel _ _ _ F)). }
      destruct (_ && _) eqn:Eb.
      - apply andb_true_iff in Eb as [Eb _]. apply Nat.eqb_eq in Eb. rewrite app_length in Eb.
        assert (Happ : app = []) by (apply length_zero_iff_nil; lia). subst app.
        unfold state_mut. rewrite (node_lt_sts _ _ _ HS1 Hcu). eexists. split; [reflexivity|].
        split; [now rewrite upd_length|].
        assert (Hp : is_pat P u).
        { destruct (node_Node _ _ Hcu) as [?|(p & Hp & t & Ht)]; [contradiction|].
          destruct t as [|b t]; [rewrite app_nil_r in Ht; now subst|].
          exfalso. apply (N1 eq_refl b (all_bytes_In b)). right. exists p. split; auto. exists t.
          rewrite <- app_assoc. exact Ht. }
        assert (Hdead : target u 1 None) by (eapply prefix_pat_dead; eauto using prefix_refl).
        destruct (fi_ok _ _ _ F2 curr u Hin Hcu) as [_ (sc' & Hsc' & Hmm)].
        rewrite Hsc in Hsc'. injection Hsc' as <-.
        eapply filled_reassign; eauto.
        + exists (set_fail DEAD sc), None. split; [now apply nth_error_upd_same|]. split; [auto|reflexivity].
        + exists (set_fail DEAD sc). split; [now apply nth_error_upd_same|]. exact Hmm.
      - exists s1. auto. }
    destruct Hstep as (s2 & Hs2 & Hl2 & F3). rewrite Hs2. simpl.
    replace ((qa ++ qb') ++ app) with (qa ++ (qb' ++ app)) by now rewrite app_assoc.
    eapply (IH s2 (done ++ [curr]) qa (qb' ++ app) (length u)); auto.
    + apply Forall_app. split; auto. eapply Forall_impl; [|exact Q1]. intros e (b & He & Hm).
      exists (u ++ [b]). rewrite app_length. auto.
    + intros i v Hi Hv Hl. rewrite <- HA. apply in_or_app. left. eapply U'; eauto.
    + rewrite Hl2, app_length. simpl. lia.
Qed.

Lemma filled_all sts done : filled sts done (parD done) ->
  forall u i, node ws i u -> u <> [] -> In i done.
Proof.
  intros F. induction u as [|b u IH] using rev_ind; intros i Hi Hu; [contradiction|].
  apply (fi_par _ _ _ F i u b Hi). destruct u as [|c u]; [now left|]. right.
  destruct (node_exists (c :: u)) as [j Hj].
  { eapply Node_prefix; [apply prefix_app|eapply node_Node; exact Hi]. }
  exists j. split; auto. apply IH; auto. discriminate.
Qed.

Definition ac_ok (sts : automaton) : Prop :=
  skel sts /\ forall i u, node ws i u -> u <> [] -> fail_ok sts i u /\ match_ok sts i u.

Lemma fill_ok {E} sts : skel sts ->
  (forall i u, node ws i u -> u <> [] ->
     exists s, nth_error sts i = Some s /\ st_fail s = START /\ st_matches s = own P u) ->
  exists sts', @fill_failure_transitions E sts = Ok sts' /\ ac_ok sts'.
Proof.
  intros HS Hst. unfold fill_failure_transitions.
  destruct (@init_queue_ok E all_bytes sts [] []) as (s1 & q1 & H1 & F1 & Q1).
  - apply all_bytes_NoDup.
  - constructor; simpl; auto; try tauto. constructor.
  - constructor.
  - rewrite H1. simpl.
    assert (HA : forall i u b, node ws i (u ++ [b]) -> (In i (map fst q1) <-> u = [])).
    { intros i u b Hi. rewrite (fi_par _ _ _ F1 i u b Hi). simpl. pose proof (all_bytes_In b). tauto. }
    destruct (@fill_loop_ok E (length sts) s1 [] q1 [] 1) as (s2 & done & H2 & F2).
    + lia.
    + simpl. rewrite app_nil_r. eapply filled_par; [exact F1|]. intros i u b Hi. cbn. unfold parD.
      pose proof (all_bytes_In b). split; [tauto|]. intros [->|(j & [] & _)]. auto.
    + eapply Forall_impl; [|exact Q1]. intros [e md] [Hn [b Hb]]. simpl in *. subst. exists [b]. simpl. auto.
    + constructor.
    + intros i v Hi Hv Hl. simpl. rewrite app_nil_r. destruct v as [|b [|? ?]]; simpl in Hl; [easy| |lia].
      now apply (HA i [] b).
    + simpl. rewrite <- (sk_len _ (fi_skel _ _ _ F1)), (sk_len _ HS). lia.
    + rewrite app_nil_r in H2. exists s2. split; auto. split; [apply (fi_skel _ _ _ F2)|].
      intros i u Hi Hu. apply (fi_ok _ _ _ F2); auto. eapply filled_all; eauto.
Qed.
End Fill.

(** ** The whole construction *)

Lemma ac_build_ok {E} P : (forall k p, In (k, p) P -> p <> []) ->
  exists ws sts, @ac_build E P = Ok sts /\ node ws START [] /\
    (forall i j u, node ws i u -> node ws j u -> i = j) /\ nodes_are P ws /\ ac_ok P ws sts.
Proof.
  intros HP. unfold ac_build. cbn [push_state length app].
  set (s0 := mkst (fun _ => FAIL) START [] 0).
  assert (Hnode0 : forall i u, node [[]; []; []] i u -> i = 2 /\ u = []).
  { intros i u [H1 H2]. destruct i as [|[|[|i]]]; try lia.
    - simpl in H2. split; congruence.
    - simpl in H2. destruct i; discriminate. }
  destruct (@build_trie_ok E P [] [[]; []; []] [s0; s0; s0]) as (ws & s3 & H3 & T & N).
  { constructor.
    - reflexivity.
    - split; [unfold START; lia|reflexivity].
    - intros i j u Hi Hj. apply Hnode0 in Hi as [-> _]. apply Hnode0 in Hj as [-> _]. reflexivity.
    - intros i u b Hi. apply Hnode0 in Hi as [_ H]. destruct u; discriminate.
    - intros k p [].
    - exists s0. simpl. auto.
    - intros i u Hi. pose proof (Hnode0 i u Hi) as [-> ->]. exists s0. simpl. repeat split; auto.
      intros b. left. split; auto. intros j Hj. apply Hnode0 in Hj as [_ Hj]. discriminate. }
  { intros v. split.
    - intros [i Hi]. apply Hnode0 in Hi as [_ ->]. now left.
    - intros [->|(p & [k []] & _)]. exists 2. split; [lia|reflexivity]. }
  simpl in T, N. rewrite H3. cbn [bind].
  assert (HL := tr_len _ _ _ T). assert (HR := tr_root _ _ _ T).
  assert (HRl : START < length s3) by (rewrite <- HL; now apply node_lt in HR).
  unfold state_mut.
  replace (START <? length s3) with true by (symmetry; now apply Nat.ltb_lt). cbn [bind].
  rewrite upd_length.
  replace (DEAD <? length s3) with true by (symmetry; apply Nat.ltb_lt; unfold DEAD, START in *; lia).
  cbn [bind].
  set (s5 := upd DEAD (redirect FAIL DEAD) (upd START (redirect FAIL START) s3)).
  assert (Hs5 : forall i, i <> START -> i <> DEAD -> nth_error s5 i = nth_error s3 i).
  { intros i H1 H2. unfold s5. rewrite !nth_error_upd_other by congruence. reflexivity. }
  assert (Hs5r : forall s, nth_error s3 START = Some s -> nth_error s5 START = Some (redirect FAIL START s)).
  { intros s Hs. unfold s5. rewrite nth_error_upd_other by (unfold START, DEAD; lia).
    now apply nth_error_upd_same. }
  assert (Hown : own P [] = []).
  { apply own_nil. intros k Hk. now apply (HP k []). }
  assert (HS : skel P ws s5).
  { constructor.
    - unfold s5. now rewrite !upd_length.
    - destruct (tr_dead _ _ _ T) as (s & Hs & Ht & Hm & Hd). exists (redirect FAIL DEAD s).
      split; [|simpl; repeat split; auto; intros b; now rewrite Ht].
      unfold s5. apply nth_error_upd_same. rewrite nth_error_upd_other by (unfold START, DEAD; lia). auto.
    - destruct (tr_st _ _ _ T START [] HR) as (s & Hs & _ & Hm & _). exists (redirect FAIL START s).
      split; auto. simpl. congruence.
    - intros i u Hi. destruct (tr_st _ _ _ T i u Hi) as (s & Hs & Hd & Hm & Hf & Ht).
      destruct (Nat.eq_dec i START) as [->|Hne].
      + assert (u = []) by (eapply node_fun; eauto). subst u. exists (redirect FAIL START s).
        split; auto. split; auto. intros b. simpl. destruct (Ht b) as [[H1 H2]|H1].
        * left. rewrite H1. split; auto. intros Hn. apply N in Hn as [j Hj]. now apply (H2 j).
        * right. destruct (st_trans s b =? FAIL) eqn:EF; auto. apply Nat.eqb_eq in EF. rewrite EF in H1.
          destruct H1 as [H1 _]. unfold FAIL in H1. lia.
      + assert (u <> []).
        { intros ->. apply Hne. eapply (tr_uniq _ _ _ T); eauto. }
        exists s. rewrite Hs5; auto; [|destruct Hi; unfold DEAD; lia]. split; auto. split; auto.
        intros b. destruct (Ht b) as [[H1 H2]|H1]; auto. left. split.
        * intros Hn. apply N in Hn as [j Hj]. now apply (H2 j).
        * now destruct u. }
  destruct (@fill_ok P HP ws HR (tr_uniq _ _ _ T) N E s5 HS) as (s6 & H6 & HO).
  { intros i u Hi Hu. destruct (tr_st _ _ _ T i u Hi) as (s & Hs & Hd & Hm & Hf & Ht).
    exists s. rewrite Hs5; auto; [|destruct Hi; unfold DEAD; lia].
    intros ->. apply Hu. eapply node_fun; eauto. }
  rewrite H6. cbn [bind]. destruct (sk_root _ _ _ (proj1 HO)) as (sr & Hsr & Hmr).
  unfold state. rewrite Hsr. cbn [unwrap bind]. unfold is_match. rewrite Hmr.
  exists ws, s6. split; auto. split; auto. split; [apply (tr_uniq _ _ _ T)|]. auto.
Qed.

(** ** Searching *)

Lemma prefix_cases (q u v : str) : prefix q (u ++ v) -> prefix q u \/ prefix u q.
Proof.
  revert u. induction q as [|c q IH]; intros u [t Ht].
  - left. now exists u.
  - destruct u as [|d u].
    + right. now exists (c :: q).
    + simpl in Ht. injection Ht as -> Ht. destruct (IH u) as [[x Hx]|[x Hx]].
      * now exists t.
      * left. exists x. now rewrite Hx.
      * right. exists x. now rewrite Hx.
Qed.

Lemma prefix_len (u v : str) : prefix u v -> length u <= length v.
Proof. intros [t ->]. rewrite app_length. lia. Qed.

Lemma prefix_snoc q v b i : i <= length v -> prefix q (skipn i (v ++ [b])) ->
  prefix q (skipn i v) \/ q = skipn i (v ++ [b]).
Proof.
  intros Hi [t Ht]. destruct (rev t) as [|c rt] eqn:Er.
  - right. assert (t = []) by (rewrite <- (rev_involutive t), Er; reflexivity). subst.
    now rewrite app_nil_r in Ht.
  - left. assert (t = rev rt ++ [c]) as -> by (rewrite <- (rev_involutive t), Er; reflexivity).
    exists (rev rt). rewrite skipn_snoc in Ht by lia. rewrite app_assoc in Ht.
    apply app_inj_tail in Ht. tauto.
Qed.

Section Search.
Variable P : list (nat * str).
Hypothesis HP : forall k p, In (k, p) P -> p <> [].
Variable ws : list str.
Variable sts : automaton.
Hypothesis Hroot : node ws START [].
Hypothesis Huniq : forall i j u, node ws i u -> node ws j u -> i = j.
Hypothesis Hnodes : nodes_are P ws.
Hypothesis Hac : ac_ok P ws sts.

(** [m] is the leftmost-longest occurrence in [w], which starts at [off] of the haystack. *)
Definition leftmost (w : str) (off : nat) (m : ac_match) : Prop :=
  exists M p, is_pat P p /\ prefix p (skipn M w) /\ hd_error (own P p) = Some (m_pattern m) /\
    m_end m = off + M + length p /\ (forall i, i < M -> ~ occ P w i) /\
    (forall q, is_pat P q -> prefix q (skipn M w) -> length q <= length p).

Definition last_ok (w : str) (off : nat) (last : option ac_match) : Prop :=
  match last with
  | None => forall i, ~ occ P w i
  | Some m => leftmost w off m
  end.

(** Once the automaton is dead no occurrence continues past the bytes read. *)
Lemma dead_inside v rest i q : none_good P v 0 -> i <= length v -> (forall j, j < i -> ~ occ P v j) ->
  is_pat P q -> prefix q (skipn i (v ++ rest)) -> prefix q (skipn i v) /\ length q < length v - i.
Proof.
  intros Hd Hi Hno Hq Hpre. rewrite skipn_app in Hpre. replace (i - length v) with 0 in Hpre by lia.
  simpl in Hpre.
  assert (Hbad : prefix (skipn i v) q -> False).
  { intros Hb. apply (Hd i); [lia|]. split; [lia|]. split; auto. eapply Node_prefix; eauto.
    now apply Node_pat. }
  apply prefix_cases in Hpre as [H|H]; [|now apply Hbad in H]. split; auto.
  rewrite <- skipn_length. destruct H as [t Ht]. destruct t as [|c t].
  - exfalso. apply Hbad. rewrite Ht, app_nil_r. apply prefix_refl.
  - rewrite Ht, app_length. simpl. lia.
Qed.

Lemma next_state_ok {E} w st u b : target P w 0 (Some u) -> node ws st u ->
  exists j r, @next_state E sts st b = Ok j /\ target P (w ++ [b]) 0 r /\ st_id ws r j.
Proof.
  intros Ht Hn. unfold next_state.
  destruct (@fail_chain_ok P HP ws Hroot Huniq Hnodes E sts (proj1 Hac) (length sts) st u b Hn)
    as (j & r & H1 & H2 & H3).
  - intros i v Hi Hv _. now apply Hac.
  - pose proof (depth_bound P HP ws Hroot Huniq Hnodes sts st u (proj1 Hac) Hn). lia.
  - exists j, r. split; auto. split; auto. eapply target_snoc; eauto; lia.
Qed.

Lemma st_match {E} w st u off : target P w 0 (Some u) -> node ws st u ->
  exists m, @get_match E sts st off = Ok m /\
    match m with
    | Some m => m_end m = off /\ exists p, reports P w p /\ hd_error (own P p) = Some (m_pattern m)
    | None => forall p, ~ reports P w p
    end.
Proof.
  intros Ht Hn. unfold get_match, state.
  assert (Hshift := reports_shift P HP _ _ _ Ht).
  destruct u as [|c u].
  - assert (st = START) by (eapply Huniq; eauto). subst.
    destruct (sk_root _ _ _ (proj1 Hac)) as (s & Hs & Hm). rewrite Hs. simpl. rewrite Hm. simpl.
    exists None. split; auto. intros p Hr. apply Hshift in Hr. now apply (reports_nil P HP) in Hr.
  - destruct (proj2 Hac st (c :: u) Hn) as [_ (s & Hs & Hm)]; [discriminate|]. rewrite Hs. simpl.
    destruct (hd_error (st_matches s)) as [pt|]; simpl; eexists; (split; [reflexivity|]).
    + simpl. split; auto. destruct Hm as (p & Hr & Ho). exists p. split; auto. now apply Hshift.
    + intros p Hr. apply Hshift in Hr. now apply (Hm p).
Qed.

Lemma no_new_occ v b n : (forall p, ~ reports P (v ++ [b]) p) -> (forall i, i < n -> ~ occ P v i) ->
  forall i, i < n -> ~ occ P (v ++ [b]) i.
Proof.
  intros Hr Hv i. induction i as [i IH] using lt_wf_ind. intros Hi Ho.
  apply (occ_snoc P HP) in Ho as [Ho|[Hl Hp]]; [now apply (Hv i)|].
  apply (Hr (skipn i (v ++ [b]))). exists i. split; auto. split.
  - rewrite app_length. lia.
  - split; [now apply Node_pat|]. intros j Hj. apply IH; lia.
Qed.

Lemma find_loop_ok {E} rest : forall w st u off last,
  target P w 0 (Some u) -> node ws st u -> last_ok w off last ->
  exists m, @find_loop E sts st (off + length w) rest last = Ok m /\ last_ok (w ++ rest) off m.
Proof.
  induction rest as [|b rest IH]; intros w st u off last Ht Hn Hl.
  - exists last. rewrite app_nil_r. auto.
  - simpl. destruct (@next_state_ok E w st u b Ht Hn) as (j & r & Hj & Htr & Hid). rewrite Hj. simpl.
    destruct r as [u2|]; simpl in Hid.
    + assert (j =? FAIL = false) as -> by (apply Nat.eqb_neq; destruct Hid; unfold FAIL; lia).
      assert (j =? DEAD = false) as -> by (apply Nat.eqb_neq; destruct Hid; unfold DEAD; lia).
      destruct (@st_match E (w ++ [b]) j u2 (off + length w + 1) Htr Hid) as (m & Hm & Hsp).
      rewrite Hm. simpl. replace (w ++ b :: rest) with ((w ++ [b]) ++ rest) by now rewrite <- app_assoc.
      replace (off + length w + 1) with (off + length (w ++ [b])) by (rewrite app_length; simpl; lia).
      apply IH with (u := u2); auto. destruct m as [m|].
      * destruct Hsp as (He & p & (d & Hg & Hd & Hp) & Ho). exists d, p. rewrite Hd. split; auto.
        split; [apply prefix_refl|]. split; auto. split.
        -- rewrite He, <- Hd, skipn_length, app_length. simpl. destruct Hg as (Hg & _).
           rewrite app_length in Hg. simpl in Hg. lia.
        -- split; [apply Hg|]. intros q _ Hq. now apply prefix_len.
      * destruct last as [m|].
        -- destruct Hl as (M & p & Hp & Hpre & Ho & He & Hno & Hmax).
           assert (HM : M < length w).
           { apply (occ_le P HP). exists p. auto. }
           exists M, p. split; auto. split.
           { rewrite skipn_snoc by lia. eapply prefix_trans; eauto. apply prefix_app. }
           split; auto. split; auto.
           assert (Hno' : forall i, i < M -> ~ occ P (w ++ [b]) i) by now apply no_new_occ.
           split; auto. intros q Hq Hqp. apply prefix_snoc in Hqp as [Hqp| ->]; [now apply Hmax| |lia].
           exfalso. apply (Hsp (skipn M (w ++ [b]))). exists M. split; auto. split; [|split; auto].
           ++ rewrite app_length. lia.
           ++ now apply Node_pat.
        -- simpl in Hl. intros i. apply no_new_occ with (n := S i); auto.
    + rewrite Hid. simpl. inversion Htr as [|Hng]; subst.
      destruct last as [m|].
      * exists (Some m). split; auto. simpl.
        destruct Hl as (M & p & Hp & Hpre & Ho & He & Hno & Hmax).
        assert (HM : M < length w).
        { apply (occ_le P HP). exists p. auto. }
        replace (w ++ b :: rest) with ((w ++ [b]) ++ rest) by now rewrite <- app_assoc.
        assert (HnoB : forall i, i <= M -> forall j, j < i -> ~ occ P (w ++ [b]) j).
        { intros i Hi j Hji Hocc. revert j Hji Hocc.
          induction j as [j IHj] using lt_wf_ind. intros Hji (q & Hq & Hqp).
          assert (Hin : prefix q (skipn j (w ++ [b])) /\ length q < length (w ++ [b]) - j).
          { apply dead_inside with (rest := []); auto.
            - rewrite app_length. lia.
            - intros k Hk Hoc. apply (IHj k); auto. lia.
            - now rewrite app_nil_r. }
          destruct Hin as [H1 H2]. apply prefix_snoc in H1 as [H1| ->]; [| |lia].
          - apply (Hno j); [lia|]. exists q. auto.
          - rewrite skipn_length in H2. lia. }
        assert (Hdead : forall i q, i <= M -> is_pat P q -> prefix q (skipn i ((w ++ [b]) ++ rest)) ->
                  prefix q (skipn i w)).
        { intros i q Hi Hq Hqp. destruct (dead_inside (w ++ [b]) rest i q) as [H1 H2]; auto.
          - rewrite app_length. lia.
          - now apply HnoB.
          - apply prefix_snoc in H1 as [H1| ->]; auto; [|lia]. rewrite skipn_length in H2. lia. }
        exists M, p. split; auto. split.
        { rewrite <- app_assoc, skipn_app. replace (M - length w) with 0 by lia. simpl.
          eapply prefix_trans; eauto. apply prefix_app. }
        split; auto. split; auto. split.
        -- intros i Hi (q & Hq & Hqp). apply (Hno i Hi). exists q. split; auto. apply Hdead; auto. lia.
        -- intros q Hq Hqp. apply Hmax; auto.
      * exfalso. simpl in Hl.
        assert (Hno : forall i, ~ occ P (w ++ [b]) i).
        { intros i. induction i as [i IHi] using lt_wf_ind. intros Hocc.
          apply (occ_snoc P HP) in Hocc as [Hocc|[Hil Hp]]; [now apply (Hl i)|].
          apply (Hng i); [lia|]. split; [rewrite app_length; lia|]. split; [now apply Node_pat|auto]. }
        apply (Hng (length (w ++ [b]))); [lia|]. apply good_end. exact Hno.
Qed.

Lemma ac_find_at_ok {E} h off :
  exists m, @ac_find_at E sts h off = Ok m /\ last_ok (skipn off h) off m.
Proof.
  unfold ac_find_at. assert (Ht : target P [] 0 (Some [])) by (apply target_node; auto; now left).
  destruct (@st_match E [] START [] off Ht Hroot) as (m & Hm & Hsp). rewrite Hm. simpl.
  destruct (@find_loop_ok E (skipn off h) [] START [] off m Ht Hroot) as (m2 & H1 & H2).
  - destruct m as [m|].
    + destruct Hsp as (_ & p & Hr & _). now apply (reports_nil P HP) in Hr.
    + intros i Ho. apply (occ_le P HP) in Ho. simpl in Ho. lia.
  - simpl in H1. rewrite Nat.add_0_r in H1. exists m2. auto.
Qed.
End Search.

(** ** The searcher of the crate *)

Lemma occurs_prefix p h at_ i : at_ <= i -> i <= length h ->
  (occurs_at p h i <-> prefix p (skipn (i - at_) (skipn at_ h))).
Proof.
  intros H1 H2. unfold occurs_at, prefix. rewrite skipn_skipn. replace (i - at_ + at_) with i by lia.
  split; [intros [_ H]; exact H|auto].
Qed.

Lemma own_first (P : list (nat * str)) p pt : hd_error (own P p) = Some pt ->
  exists before after, P = before ++ (pat_id pt, p) :: after /\ pat_len pt = length p /\
    forall k q, In (k, q) before -> q <> p.
Proof.
  induction P as [|[k q] P IH]; simpl; [discriminate|]. unfold own. simpl.
  destruct (str_eqb q p) eqn:Eq.
  - simpl. intros H. injection H as <-. apply str_eqb_eq in Eq. subst. exists [], P. simpl. auto.
  - intros H. destruct (IH H) as (b & a & -> & Hl & Hno). exists ((k, q) :: b), a. split; auto. split; auto.
    intros k' q' [He|Hin]; eauto. inversion He; subst. now apply str_eqb_neq.
Qed.

Lemma kind_from_usize_usize {E} k : @kind_from_usize E (kind_usize k) = Ok k.
Proof. now destruct k. Qed.

(** Search as used by the lexer: total, leftmost and longest. *)
Theorem find_at_spec {E E'} (sx : syntax) : (forall k p, In (k, p) sx -> p <> []) ->
  exists sr, @searcher_new E sx = Ok sr /\
  forall h at_, exists r, @find_at E' sr h at_ = Ok r /\
    match r with
    | Some (k, i, j) => best sx h at_ k i j
    | None => no_occurrence sx h at_
    end.
Proof.
  intros Hne. unfold searcher_new. set (P := map _ sx).
  assert (HP : forall k p, In (k, p) P -> p <> []).
  { intros k p Hin. apply in_map_iff in Hin as ([k' p'] & He & Hin). inversion He; subst. eauto. }
  destruct (@ac_build_ok E P HP) as (ws & sts & HB & HR & HU & HN & HO). exists sts. split; auto.
  intros h at_. destruct (@ac_find_at_ok P HP ws sts HR HU HN HO E' h at_) as (m & Hm & Hl).
  unfold find_at. rewrite Hm. simpl.
  assert (Hpat : forall k p, In (k, p) sx -> is_pat P p).
  { intros k p Hin. exists (kind_usize k). apply in_map_iff. exists (k, p). auto. }
  destruct m as [m|].
  - destruct Hl as (M & p & Hp & Hpre & Hown & He & Hno & Hmax).
    destruct (own_first P p _ Hown) as (b & a & HPe & Hlen & Hbef).
    apply map_eq_app in HPe as (b' & a' & Hsx & Hb & Ha).
    destruct a' as [|[k q] a']; [discriminate|]. simpl in Ha. injection Ha as Hk Hq Ha. subst q.
    rewrite <- Hk, kind_from_usize_usize. simpl. rewrite Hlen. unfold usub. rewrite He.
    replace (at_ + M + length p <? length p) with false by (symmetry; apply Nat.ltb_ge; lia). simpl.
    exists (Some (k, at_ + M + length p - length p, at_ + M + length p)). split; auto.
    replace (at_ + M + length p - length p) with (at_ + M) by lia.
    assert (HM : M < length (skipn at_ h)).
    { apply (occ_le P HP). exists p. auto. }
    rewrite skipn_length in HM.
    assert (Hplen : length p <= length (skipn M (skipn at_ h))) by now apply prefix_len.
    rewrite skipn_skipn, skipn_length in Hplen.
    assert (Hat : forall q, occurs_at q h (at_ + M) <-> prefix q (skipn M (skipn at_ h))).
    { intros q. rewrite (occurs_prefix q h at_) by lia. now replace (at_ + M - at_) with M by lia. }
    repeat split; try lia.
    + intros i' k' p' Hin Hocc Hle. destruct (Nat.le_gt_cases (at_ + M) i') as [|Hgt]; auto. exfalso.
      apply (Hno (i' - at_)); [lia|]. exists p'. split; eauto. apply occurs_prefix; auto. lia.
    + intros k' p' Hin Hocc. apply Hat in Hocc.
      pose proof (Hmax p' (Hpat _ _ Hin) Hocc). lia.
    + exists b', p, a'. split; auto. split; [now apply Hat|]. split; [lia|].
      intros k' p' Hin. apply (Hbef (kind_usize k')). rewrite <- Hb. apply in_map_iff. exists (k', p'). auto.
  - exists None. split; auto. intros k p i Hin Hle Hocc. apply (Hl (i - at_)). exists p. split; eauto.
    apply occurs_prefix; auto. apply Hocc.
Qed.
